(** The fitted Gaussian process as a function of its data: linearity, trends, translations, rotations, order of the samples,
    behaviour away from the samples, more samples, units of the data. *)
Require Import Reals List Bool Arith Lra Lia FunctionalExtensionality Permutation.
From Verif Require Import RVec Num Sums DomModel DomMoreModel BasisModel SweepProofs HullProofs NormProofs FunProofs TensorProofs MatLib SpecProofs LipModel GrassLib SubModel Deriv VarproLib ArnoldiMoreProofs GpModel GpKernel GpProofs GpFit GpGrad GpLml GpCases.
Import ListNotations.
Local Open Scope R_scope.

(* ---------------- linear in the data, for a fixed distance matrix ---------------- *)
Lemma vget_pad : forall (y : vec) N i, vget (y ++ vzero N) i = vget y i.
Proof.
  intros y N i. destruct (le_lt_dec (length y) i); [rewrite vget_app_r by auto; rewrite vzero_get|apply vget_app_l; auto].
  unfold vget. symmetry. apply nth_overflow. auto.
Qed.
Lemma eval_solve : forall eigh tol tau B X y L x, eigh_post (length X + gp_n B) (gp_block tau B X L) (eigh (gp_block tau B X L)) ->
  gp_eval B X L (gp_weights eigh tol tau B X y L) x =
  rsum (length X + gp_n B) (fun k => (if Rltb tol (Rabs (vget (fst (eigh (gp_block tau B X L))) k)) then / vget (fst (eigh (gp_block tau B X L))) k * dot (nth k (snd (eigh (gp_block tau B X L))) []) (y ++ vzero (gp_n B)) else 0)
     * dot (map (gk L x) X ++ gp_v B x) (nth k (snd (eigh (gp_block tau B X L))) [])).
Proof.
  intros eigh tol tau B X y L x P. unfold gp_eval, gp_weights. cbn zeta. fold (gp_block tau B X L). set (e := eigh (gp_block tau B X L)) in *. set (n := (length X + gp_n B)%nat) in *.
  assert (LS : length (eig_solve n e tol (y ++ vzero (gp_n B))) = n) by (apply (eig_solve_len n (gp_block tau B X L)); auto).
  set (s := eig_solve n e tol (y ++ vzero (gp_n B))) in *. cbn [fst snd].
  destruct (split_len (length X) (gp_n B) s LS) as [L1 [L2 E]]. rewrite <- TensorProofs.dot_app by (rewrite map_length; auto). rewrite <- E.
  destruct P as [_ [[LU [F _]] _]]. unfold s, eig_solve. rewrite (dot_lincomb_r n) by (auto; rewrite map_length, seq_length; auto). rewrite LU. apply rsum_ext. intros k Hk. rewrite vget_map_seq by auto. reflexivity.
Qed.
Theorem pred_linear : forall eigh tol tau B X y1 y2 L a b x, length y1 = length X -> length y2 = length X ->
  eigh_post (length X + gp_n B) (gp_block tau B X L) (eigh (gp_block tau B X L)) ->
  gp_eval B X L (gp_weights eigh tol tau B X (vadd (vscale a y1) (vscale b y2)) L) x =
  a * gp_eval B X L (gp_weights eigh tol tau B X y1 L) x + b * gp_eval B X L (gp_weights eigh tol tau B X y2 L) x.
Proof.
  intros eigh tol tau B X y1 y2 L a b x L1 L2 P. rewrite !eval_solve by auto. rewrite <- !rsum_scal_l, <- rsum_plus. apply rsum_ext. intros k Hk.
  set (u := nth k (snd (eigh (gp_block tau B X L))) []). set (ew := vget (fst (eigh (gp_block tau B X L))) k).
  assert (D : dot u (vadd (vscale a y1) (vscale b y2) ++ vzero (gp_n B)) = a * dot u (y1 ++ vzero (gp_n B)) + b * dot u (y2 ++ vzero (gp_n B))).
  { rewrite <- !dot_vscale_r, <- dot_vadd_r by (rewrite !vscale_length, !app_length; congruence). f_equal.
    apply vec_ext; [rewrite vadd_length; rewrite ?vscale_length, !app_length, ?vadd_length; rewrite ?vscale_length; congruence|].
    intros i Hi. rewrite vadd_get by (rewrite !vscale_length, !app_length; congruence). rewrite !vscale_get, !vget_pad. rewrite vadd_get by (rewrite !vscale_length; congruence). rewrite !vscale_get. ring. }
  rewrite D. destruct (Rltb tol (Rabs ew)); ring.
Qed.

(* ---------------- a trend added to the data is added to the prediction ---------------- *)
Lemma block_sol_sub : forall tau K V y1 y2 w1 w2, length K = length y1 -> length y1 = length y2 -> length (snd w1) = length (snd w2) ->
  block_sol tau K V y1 w1 -> block_sol tau K V y2 w2 -> block_sol tau K V (vsub y1 y2) (vsub (fst w1) (fst w2), vsub (snd w1) (snd w2)).
Proof.
  intros tau K V y1 y2 w1 w2 LK Ly Lb [A1 [B1 C1]] [A2 [B2 C2]]. unfold block_sol. cbn [fst snd].
  assert (LA : length (fst w1) = length (fst w2)) by congruence. rewrite !vsub_length by auto.
  split; [auto|]. split.
  - intros i Hi. rewrite !dot_vsub_r, !vsub_get by auto. pose proof (B1 i Hi). pose proof (B2 i ltac:(congruence)). lra.
  - intros p Lp. rewrite (rsum_ext _ _ (fun i => vget (fst w1) i * dot (nth i V []) p - vget (fst w2) i * dot (nth i V []) p)).
    2:{ intros i Hi. rewrite vsub_get by auto. ring. }
    rewrite rsum_minus, C1 by auto. rewrite Ly, C2 by congruence. ring.
Qed.
(** the samples determine the polynomials of the trend *)
Definition unisolvent (B : option tbasis) (X : mat) : Prop :=
  forall p, length p = gp_n B -> (forall i, (i < length X)%nat -> dot (gp_v B (nth i X [])) p = 0) -> p = vzero (gp_n B).
(** data plus the values of the trend polynomial with coefficients c *)
Definition add_trend (B : option tbasis) (X : mat) (y c : vec) : vec := map (fun i => vget y i + dot (gp_v B (nth i X [])) c) (seq 0 (length X)).
Lemma add_trend_len : forall B X y c, length (add_trend B X y c) = length X. Proof. intros. unfold add_trend. rewrite map_length, seq_length. auto. Qed.
Lemma add_trend_get : forall B X y c i, (i < length X)%nat -> vget (add_trend B X y c) i = vget y i + dot (gp_v B (nth i X [])) c.
Proof. intros. unfold add_trend. rewrite vget_map_seq; auto. Qed.
Lemma weights_shift : forall eigh tol tau B X y L c, 0 <= tol -> 0 <= tau -> (0 < tau \/ distinct_pts L X) -> length y = length X -> length c = gp_n B ->
  eigh_post (length X + gp_n B) (gp_block tau B X L) (eigh (gp_block tau B X L)) -> kept tol (length X + gp_n B) (eigh (gp_block tau B X L)) ->
  let w := gp_weights eigh tol tau B X y L in let w' := gp_weights eigh tol tau B X (add_trend B X y c) L in
  fst w' = fst w /\ (forall i, (i < length X)%nat -> dot (gp_v B (nth i X [])) (snd w') = dot (gp_v B (nth i X [])) (snd w) + dot (gp_v B (nth i X [])) c) /\
  (unisolvent B X -> snd w' = vadd (snd w) c).
Proof.
  intros eigh tol tau B X y L c H1 H2 H3 Ly Lc P K w w'. destruct (gp_block_sol eigh tol tau B X y L H1 H2 H3 Ly P K) as [S Lb]. fold w in S, Lb.
  destruct (gp_block_sol eigh tol tau B X (add_trend B X y c) L H1 H2 H3 (add_trend_len _ _ _ _) P K) as [S' Lb']. fold w' in S', Lb'.
  assert (LY : length (add_trend B X y c) = length y) by (rewrite add_trend_len; auto).
  pose proof (block_sol_sub tau (gp_K L X) (map (gp_v B) X) (add_trend B X y c) y w' w ltac:(rewrite gp_K_len, LY; auto) LY ltac:(congruence) S' S) as D.
  assert (LF : length (fst w') = length (fst w)) by (destruct S as [S _], S' as [S' _]; congruence).
  destruct (sol_trend tau L X B (vsub (add_trend B X y c) y) (vsub (fst w') (fst w), vsub (snd w') (snd w)) H2 ltac:(rewrite vsub_length by auto; rewrite LY; auto) ltac:(cbn [snd]; rewrite vsub_length; congruence) D c Lc H3) as [Z T].
  { intros i Hi. rewrite vsub_get by auto. rewrite add_trend_get by auto. ring. }
  cbn [fst snd] in Z, T.
  assert (EF : fst w' = fst w).
  { apply vec_ext; [auto|]. intros i Hi. pose proof (f_equal (fun v => vget v i) Z) as Zi. cbn beta in Zi. rewrite vsub_get, vzero_get in Zi by auto. lra. }
  assert (EV : forall i, (i < length X)%nat -> dot (gp_v B (nth i X [])) (snd w') = dot (gp_v B (nth i X [])) (snd w) + dot (gp_v B (nth i X [])) c).
  { intros i Hi. pose proof (T i Hi) as Ti. rewrite dot_vsub_r in Ti by congruence. lra. }
  split; [exact EF|]. split; [exact EV|]. intro U.
  assert (E0 : vsub (snd w') (vadd (snd w) c) = vzero (gp_n B)).
  { apply U; [rewrite vsub_length; rewrite ?vadd_length; congruence|]. intros i Hi. rewrite dot_vsub_r by (rewrite vadd_length; congruence). rewrite dot_vadd_r by congruence. rewrite (EV i Hi). ring. }
  apply vec_ext; [rewrite vadd_length; congruence|]. intros i Hi. pose proof (f_equal (fun v => vget v i) E0) as Zi. cbn beta in Zi. rewrite vsub_get, vzero_get in Zi by (rewrite vadd_length; congruence). lra.
Qed.
Theorem fit_shift : forall opt eigh tol tau degree st dexpm m X y L0 c, let B := gp_basis degree m X in 0 <= tol -> 0 < tau -> length y = length X -> length c = gp_n B ->
  (forall ell, let A := gp_block tau B X (make_L st m ell) in eigh_post (length X + gp_n B) A (eigh A) /\ kept tol (length X + gp_n B) (eigh A)) ->
  let f := gp_fit opt eigh tol tau degree st dexpm m X y L0 in let f' := gp_fit opt eigh tol tau degree st dexpm m X (add_trend B X y c) L0 in
  fst f' = fst f /\ (forall i, (i < length X)%nat -> gp_predict degree m X f' (nth i X []) = gp_predict degree m X f (nth i X []) + dot (gp_v B (nth i X [])) c) /\
  (unisolvent B X -> forall x, gp_predict degree m X f' x = gp_predict degree m X f x + dot (gp_v B x) c).
Proof.
  intros opt eigh tol tau degree st dexpm m X y L0 c B H1 H2 Ly Lc HP f f'.
  assert (W : forall L, (exists ell, L = make_L st m ell) -> let w := gp_weights eigh tol tau B X y L in let w' := gp_weights eigh tol tau B X (add_trend B X y c) L in
    fst w' = fst w /\ (forall i, (i < length X)%nat -> dot (gp_v B (nth i X [])) (snd w') = dot (gp_v B (nth i X [])) (snd w) + dot (gp_v B (nth i X [])) c) /\ (unisolvent B X -> snd w' = vadd (snd w) c)).
  { intros L [ell ->]. destruct (HP ell) as [P K]. apply weights_shift; auto. lra. }
  assert (O : gp_lml eigh tol tau B st m X (add_trend B X y c) = gp_lml eigh tol tau B st m X y).
  { apply functional_extensionality. intro ell. unfold gp_lml. cbn zeta. destruct (W (make_L st m ell) (ex_intro _ ell eq_refl)) as [E _]. cbv zeta in E. rewrite E.
    unfold gp_obj. f_equal. f_equal. destruct (HP ell) as [P K]. set (L := make_L st m ell) in *.
    destruct (gp_block_sol eigh tol tau B X y L H1 (Rlt_le _ _ H2) (or_introl H2) Ly P K) as [S Lb]. set (w := gp_weights eigh tol tau B X y L) in *.
    pose proof (sol_orth tau L X B y w Ly Lb S c Lc) as Q. assert (LF : length (fst w) = length X) by (destruct S; congruence).
    rewrite !(dot_rs (length X)) by (auto; apply add_trend_len). rewrite (rsum_ext _ _ (fun i => vget y i * vget (fst w) i + vget (fst w) i * dot (gp_v B (nth i X [])) c)) by (intros i Hi; rewrite add_trend_get by auto; ring).
    rewrite rsum_plus, Q. ring. }
  assert (G : (fun ell k => gp_lml_grad eigh tol tau B st (dexpm ell) m X (add_trend B X y c) ell k) = (fun ell k => gp_lml_grad eigh tol tau B st (dexpm ell) m X y ell k)).
  { apply functional_extensionality. intro ell. apply functional_extensionality. intro k. unfold gp_lml_grad. cbn zeta. destruct (W (make_L st m ell) (ex_intro _ ell eq_refl)) as [E _]. cbv zeta in E. rewrite E. reflexivity. }
  unfold f', gp_fit. fold B. rewrite O, G. unfold f, gp_fit. fold B. set (ell := opt _ _ _). cbn [fst snd].
  destruct (W (make_L st m ell) (ex_intro _ ell eq_refl)) as [E1 [E2 E3]]. cbv zeta in E1, E2, E3.
  assert (Lb : length (snd (gp_weights eigh tol tau B X y (make_L st m ell))) = gp_n B).
  { destruct (HP ell) as [P K]. apply gp_block_sol; auto; lra. }
  split; [reflexivity|]. unfold gp_predict, gp_eval. fold B. cbn [fst snd]. split.
  - intros i Hi. rewrite E1, (E2 i Hi). ring.
  - intros U x. rewrite E1, (E3 U), dot_vadd_r by congruence. ring.
Qed.

(* ---------------- translations ---------------- *)
Lemma gk_d_shift : forall L t x z, length x = length t -> length z = length t -> gk_d L (vadd t x) (vadd t z) = gk_d L x z.
Proof.
  intros L t x z Lx Lz. rewrite !gk_dist. apply rsum_ext. intros l Hl. rewrite !mv_vadd by auto. rewrite !vadd_get by (rewrite !mv_length; auto). ring.
Qed.
Lemma gk_shift : forall L t x z, length x = length t -> length z = length t -> gk L (vadd t x) (vadd t z) = gk L x z.
Proof. intros. unfold gk. rewrite gk_d_shift; auto. Qed.
Definition translate (t : vec) (X : mat) : mat := map (vadd t) X.
Lemma map_map_ext : forall (F G : vec -> vec -> R) (h : vec -> vec) X, (forall x z, In x X -> In z X -> F (h x) (h z) = G x z) -> map (fun x => map (F x) (map h X)) (map h X) = map (fun x => map (G x) X) X.
Proof. intros F G h X E. rewrite map_map. apply map_ext_in. intros x Hx. rewrite map_map. apply map_ext_in. intros z Hz. apply E; auto. Qed.
Lemma fold_min_shift : forall (l : list R) a t, fold_left Rmin (map (Rplus t) l) (t + a) = t + fold_left Rmin l a.
Proof.
  induction l as [|b l IH]; intros a t; [reflexivity|]. cbn [map fold_left]. replace (Rmin (t + a) (t + b)) with (t + Rmin a b); [apply IH|].
  unfold Rmin. destruct (Rle_dec a b), (Rle_dec (t + a) (t + b)); lra.
Qed.
Lemma fold_max_shift : forall (l : list R) a t, fold_left Rmax (map (Rplus t) l) (t + a) = t + fold_left Rmax l a.
Proof.
  induction l as [|b l IH]; intros a t; [reflexivity|]. cbn [map fold_left]. replace (Rmax (t + a) (t + b)) with (t + Rmax a b); [apply IH|].
  unfold Rmax. destruct (Rle_dec a b), (Rle_dec (t + a) (t + b)); lra.
Qed.
Lemma col_shift : forall t X k, Forall (fun x => length x = length t) X -> col (translate t X) k = map (Rplus (vget t k)) (col X k).
Proof.
  intros t X k F. unfold col, translate. rewrite !map_map. apply map_ext_in. intros x Hx. rewrite Forall_forall in F. rewrite vadd_get by (symmetry; auto). reflexivity.
Qed.
Lemma vmin_shift : forall t x, x <> [] -> vmin (map (Rplus t) x) = t + vmin x.
Proof. intros t [|a x] N; [congruence|]. cbn [map vmin]. apply fold_min_shift. Qed.
Lemma vmax_shift : forall t x, x <> [] -> vmax (map (Rplus t) x) = t + vmax x.
Proof. intros t [|a x] N; [congruence|]. cbn [map vmax]. apply fold_max_shift. Qed.
Lemma prodn_ext : forall n f g, (forall k, (k < n)%nat -> f k = g k) -> prodn n f = prodn n g.
Proof. induction n; intros f g E; [reflexivity|]. cbn [prodn]. rewrite (IHn f g) by (intros; apply E; lia). rewrite E by lia. reflexivity. Qed.
Lemma scale_shift : forall t X k a, Forall (fun x => length x = length t) X -> X <> [] -> (k < length t)%nat ->
  scale (set_scale (length t) (translate t X)) k (vget t k + a) = scale (set_scale (length t) X) k a.
Proof.
  intros t X k a F N Hk. unfold set_scale, scale. rewrite !vget_map_seq by auto. rewrite col_shift by auto.
  assert (NC : col X k <> []) by (destruct X; [congruence|discriminate]). rewrite vmin_shift, vmax_shift by auto.
  replace (vget t k + a - (vget t k + vmin (col X k))) with (a - vmin (col X k)) by ring.
  replace (vget t k + vmax (col X k) - (vget t k + vmin (col X k))) with (vmax (col X k) - vmin (col X k)) by ring. reflexivity.
Qed.
Lemma gp_v_shift : forall degree t X x, Forall (fun x => length x = length t) X -> X <> [] -> length x = length t ->
  gp_v (gp_basis degree (length t) (translate t X)) (vadd t x) = gp_v (gp_basis degree (length t) X) x.
Proof.
  intros [d|] t X x F N Lx; [|reflexivity]. unfold gp_basis, gp_v, Vrow, indices. cbn [tb_deg tb_dim]. apply map_ext. intro al. apply prodn_ext. intros k Hk. f_equal.
  unfold vcoord. cbn [tb_fam tb_scale tb_deg]. apply map_ext. intro a. rewrite vadd_get by auto. rewrite scale_shift by auto. reflexivity.
Qed.
Lemma gp_n_basis : forall degree m X X', gp_n (gp_basis degree m X) = gp_n (gp_basis degree m X').
Proof. intros [d|] m X X'; reflexivity. Qed.
Section Trans.
Variables (t : vec) (X : mat).
Hypothesis F : Forall (fun x => length x = length t) X.
Lemma in_len : forall x, In x X -> length x = length t. Proof. rewrite Forall_forall in F. auto. Qed.
Lemma gp_K_shift : forall L, gp_K L (translate t X) = gp_K L X.
Proof. intro L. unfold gp_K, translate. apply map_map_ext. intros x z Hx Hz. apply gk_shift; apply in_len; auto. Qed.
Lemma mvd_shift : forall L x z, In x X -> In z X -> vsub (mv L (vadd t x)) (mv L (vadd t z)) = vsub (mv L x) (mv L z).
Proof.
  intros L x z Hx Hz. apply in_len in Hx, Hz. rewrite !mv_vadd by auto. apply vec_ext; [rewrite !vsub_length; rewrite ?vadd_length; rewrite !mv_length; auto|].
  intros i Hi. rewrite !vsub_get by (rewrite ?vadd_length; rewrite !mv_length; auto). rewrite !vadd_get by (rewrite !mv_length; auto). ring.
Qed.
Lemma gp_dK_shift : forall st dexpm m ell k, gp_dK st dexpm m (translate t X) ell k = gp_dK st dexpm m X ell k.
Proof.
  intros [|L0| |expm] dexpm m ell k; unfold gp_dK; cbn zeta.
  - unfold gp_dK_scalar, translate. apply (map_map_ext (fun x z => - (gk_d _ x z * gk _ x z)) (fun x z => - (gk_d _ x z * gk _ x z))). intros x z Hx Hz. rewrite gk_d_shift, gk_shift by (apply in_len; auto). reflexivity.
  - unfold gp_dK_scalar, translate. apply (map_map_ext (fun x z => - (gk_d _ x z * gk _ x z)) (fun x z => - (gk_d _ x z * gk _ x z))). intros x z Hx Hz. rewrite gk_d_shift, gk_shift by (apply in_len; auto). reflexivity.
  - unfold gp_dK_diag, translate. set (L := make_L GDiag m ell).
    apply (map_map_ext (fun x z => (0 - (vget (mv L x) k - vget (mv L z) k) * (vget (mv L x) k - vget (mv L z) k)) * gk L x z) (fun x z => (0 - (vget (mv L x) k - vget (mv L z) k) * (vget (mv L x) k - vget (mv L z) k)) * gk L x z)).
    intros x z Hx Hz. rewrite gk_shift by (apply in_len; auto). rewrite !mv_vadd by (symmetry; apply in_len; auto). rewrite !vadd_get by (rewrite !mv_length; auto). ring.
  - unfold gp_dK_tril, translate. set (L := make_L (GTril expm) m ell).
    apply (map_map_ext (fun x z => (0 - dot (vsub (mv L x) (mv L z)) (vsub (mv (dexpm k) x) (mv (dexpm k) z))) * gk L x z) (fun x z => (0 - dot (vsub (mv L x) (mv L z)) (vsub (mv (dexpm k) x) (mv (dexpm k) z))) * gk L x z)).
    intros x z Hx Hz. rewrite gk_shift by (apply in_len; auto). rewrite !mvd_shift by auto. reflexivity.
Qed.
Hypothesis N : X <> [].
Lemma weights_trans : forall eigh tol tau degree y L, gp_weights eigh tol tau (gp_basis degree (length t) (translate t X)) (translate t X) y L = gp_weights eigh tol tau (gp_basis degree (length t) X) X y L.
Proof.
  intros. unfold gp_weights. cbn zeta. rewrite gp_K_shift, (gp_n_basis degree (length t) (translate t X) X).
  replace (map (gp_v (gp_basis degree (length t) (translate t X))) (translate t X)) with (map (gp_v (gp_basis degree (length t) X)) X).
  - unfold translate. rewrite map_length. reflexivity.
  - unfold translate at 2. rewrite map_map. apply map_ext_in. intros x Hx. symmetry. apply gp_v_shift; auto. apply in_len; auto.
Qed.
Lemma lml_trans : forall eigh tol tau degree st y, gp_lml eigh tol tau (gp_basis degree (length t) (translate t X)) st (length t) (translate t X) y = gp_lml eigh tol tau (gp_basis degree (length t) X) st (length t) X y.
Proof. intros. apply functional_extensionality. intro ell. unfold gp_lml. cbn zeta. rewrite weights_trans, gp_K_shift. reflexivity. Qed.
Lemma grad_trans : forall eigh tol tau degree st (dexpm : vec -> nat -> mat) y,
  (fun ell k => gp_lml_grad eigh tol tau (gp_basis degree (length t) (translate t X)) st (dexpm ell) (length t) (translate t X) y ell k) = (fun ell k => gp_lml_grad eigh tol tau (gp_basis degree (length t) X) st (dexpm ell) (length t) X y ell k).
Proof. intros. apply functional_extensionality. intro ell. apply functional_extensionality. intro k. unfold gp_lml_grad. cbn zeta. rewrite weights_trans, gp_K_shift, gp_dK_shift. reflexivity. Qed.
End Trans.
Theorem fit_translate : forall opt eigh tol tau degree st dexpm t X y L0, Forall (fun x => length x = length t) X -> X <> [] ->
  let f := gp_fit opt eigh tol tau degree st dexpm (length t) X y L0 in let f' := gp_fit opt eigh tol tau degree st dexpm (length t) (translate t X) y L0 in
  f' = f /\ forall x, length x = length t -> gp_predict degree (length t) (translate t X) f' (vadd t x) = gp_predict degree (length t) X f x.
Proof.
  intros opt eigh tol tau degree st dexpm t X y L0 F N f f'.
  assert (E : f' = f). { unfold f', f, gp_fit. cbn zeta. rewrite lml_trans, grad_trans by auto. rewrite weights_trans by auto. reflexivity. }
  split; [exact E|]. intros x Lx. rewrite E. unfold gp_predict, gp_eval. rewrite gp_v_shift by auto. f_equal. f_equal. unfold translate. rewrite map_map. apply map_ext_in. intros z Hz. apply gk_shift; auto. apply (in_len t X); auto.
Qed.

(* ---------------- rotations, for the structure 'const' without a trend ---------------- *)
Lemma gk_d_const : forall m ell x z, length x = m -> length z = m -> gk_d (make_L GConst m ell) x z = exp (vget ell 0) * exp (vget ell 0) * norm2sq (vsub x z).
Proof.
  intros m ell x z Lx Lz. unfold gk_d, make_L. rewrite !mv_mscale, !mv_eye by auto. set (a := exp (vget ell 0)).
  replace (vsub (vscale a x) (vscale a z)) with (vscale a (vsub x z)).
  - unfold norm2sq. rewrite dot_vscale_l, dot_vscale_r. ring.
  - apply vec_ext; [rewrite vscale_length, !vsub_length; rewrite ?vscale_length; congruence|]. intros i Hi. rewrite vscale_get, !vsub_get by (rewrite ?vscale_length; congruence). rewrite !vscale_get. ring.
Qed.
(** Q preserves the distances of the samples and of the point of evaluation *)
Definition isometry (m : nat) (h : vec -> vec) : Prop := forall x z, length x = m -> length z = m -> length (h x) = m /\ norm2sq (vsub (h x) (h z)) = norm2sq (vsub x z).
Theorem fit_isometry : forall opt eigh tol tau dexpm m h X y L0, isometry m h -> Forall (fun x => length x = m) X ->
  let f := gp_fit opt eigh tol tau None GConst dexpm m X y L0 in let f' := gp_fit opt eigh tol tau None GConst dexpm m (map h X) y L0 in
  f' = f /\ forall x, length x = m -> gp_predict None m (map h X) f' (h x) = gp_predict None m X f x.
Proof.
  intros opt eigh tol tau dexpm m h X y L0 I F f f'. rewrite Forall_forall in F.
  assert (D : forall ell x z, length x = m -> length z = m -> gk_d (make_L GConst m ell) (h x) (h z) = gk_d (make_L GConst m ell) x z).
  { intros ell x z Lx Lz. destruct (I x z Lx Lz) as [L1 E]. destruct (I z z Lz Lz) as [L2 _]. rewrite !gk_d_const by auto. rewrite E. reflexivity. }
  assert (G : forall ell x z, length x = m -> length z = m -> gk (make_L GConst m ell) (h x) (h z) = gk (make_L GConst m ell) x z) by (intros; unfold gk; rewrite D; auto).
  assert (K : forall ell, gp_K (make_L GConst m ell) (map h X) = gp_K (make_L GConst m ell) X) by (intro ell; unfold gp_K; apply map_map_ext; intros; apply G; auto).
  assert (W : forall ell, gp_weights eigh tol tau None (map h X) y (make_L GConst m ell) = gp_weights eigh tol tau None X y (make_L GConst m ell)).
  { intro ell. unfold gp_weights. cbn zeta. rewrite K, map_length, map_map. reflexivity. }
  assert (E : f' = f).
  { unfold f', f, gp_fit. cbn zeta. cbn [gp_basis].
    replace (gp_lml eigh tol tau None GConst m (map h X) y) with (gp_lml eigh tol tau None GConst m X y) by (apply functional_extensionality; intro ell; unfold gp_lml; cbn zeta; rewrite W, K; reflexivity).
    replace (fun ell k => gp_lml_grad eigh tol tau None GConst (dexpm ell) m (map h X) y ell k) with (fun ell k => gp_lml_grad eigh tol tau None GConst (dexpm ell) m X y ell k).
    - rewrite W. reflexivity.
    - apply functional_extensionality. intro ell. apply functional_extensionality. intro k. unfold gp_lml_grad. cbn zeta. rewrite W, K. f_equal. unfold gp_dK, gp_dK_scalar. cbn zeta. symmetry.
      apply (map_map_ext (fun x z => - (gk_d _ x z * gk _ x z)) (fun x z => - (gk_d _ x z * gk _ x z))). intros x z Hx Hz. rewrite D, G by auto. reflexivity. }
  split; [exact E|]. intros x Lx. rewrite E. unfold gp_predict, gp_eval. cbn [gp_basis gp_v]. f_equal. f_equal. rewrite map_map. apply map_ext_in. intros z Hz. unfold f, gp_fit. cbn [fst]. apply G; auto.
Qed.

(* ---------------- away from the samples ---------------- *)
Theorem pred_far : forall B X L w x delta, length (fst w) = length X -> 0 <= delta -> (forall i, (i < length X)%nat -> delta * delta <= gk_d L x (nth i X [])) ->
  Rabs (gp_eval B X L w x - dot (gp_v B x) (snd w)) <= exp (- / 2 * (delta * delta)) * rsum (length X) (fun i => Rabs (vget (fst w) i)).
Proof.
  intros B X L w x delta LW Hd H. unfold gp_eval. replace (dot (map (gk L x) X) (fst w) + dot (gp_v B x) (snd w) - dot (gp_v B x) (snd w)) with (dot (map (gk L x) X) (fst w)) by ring.
  rewrite (dot_rs (length X)) by (auto; apply map_length). eapply Rle_trans; [apply rsum_abs|]. rewrite <- rsum_scal_l. apply rsum_le. intros i Hi. rewrite Rabs_mult, gk_map_get by auto.
  apply Rmult_le_compat_r; [apply Rabs_pos|]. unfold gk. rewrite Rabs_right by (left; apply exp_pos).
  pose proof (H i Hi) as G. destruct (Req_dec (delta * delta) (gk_d L x (nth i X []))) as [<-|NE]; [lra|]. left. apply exp_increasing. lra.
Qed.

(* ---------------- more samples ---------------- *)
Lemma dot_pad : forall (a b c : vec), length a = length c -> dot (a ++ b) (c ++ vzero (length b)) = dot a c.
Proof. intros a b c E. rewrite dot_app by auto. rewrite dot_zero_r. ring. Qed.
Lemma pred_var_pad : forall L X Z x c, length c = length X -> pred_var L (X ++ Z) x (c ++ vzero (length Z)) = pred_var L X x c.
Proof.
  intros L X Z x c Lc. unfold pred_var. f_equal.
  - rewrite map_app. rewrite <- (map_length (gk L x) Z). rewrite dot_pad by (rewrite map_length; auto). reflexivity.
  - assert (LC : length (c ++ vzero (length Z)) = length (X ++ Z)) by (rewrite !app_length; unfold vzero; rewrite repeat_length; auto).
    unfold quad. rewrite (dot_rs (length (X ++ Z))) by (auto; rewrite mv_length, gp_K_len; auto). rewrite (dot_rs (length X)) by (auto; rewrite mv_length, gp_K_len; auto).
    rewrite app_length, rsum_app. rewrite (rsum_zero (length Z)).
    + rewrite Rplus_0_r. apply rsum_ext. intros i Hi. rewrite vget_pad. f_equal. rewrite !mv_get by (rewrite gp_K_len, ?app_length; lia). rewrite !gp_K_row by (rewrite ?app_length; lia).
      rewrite app_nth1 by auto. rewrite map_app. rewrite <- (map_length (gk L (nth i X [])) Z). apply dot_pad. rewrite map_length. auto.
    + intros i Hi. rewrite vget_pad. unfold vget at 1. rewrite nth_overflow by lia. ring.
Qed.
Theorem cov_more : forall e e' tol L X Z x, 0 <= tol -> eigh_post (length X) (gp_K L X) e -> eigh_post (length (X ++ Z)) (gp_K L (X ++ Z)) e' ->
  (forall k, (k < length (X ++ Z))%nat -> tol < vget (fst e') k \/ vget (fst e') k = 0) ->
  gp_cov e' tol L (X ++ Z) x <= gp_cov e tol L X x.
Proof.
  intros e e' tol L X Z x Ht P P' K. destruct (gp_cov_range e tol L X x Ht P) as [_ [c [Lc [E _]]]]. rewrite E, <- (pred_var_pad L X Z x c Lc).
  apply (proj1 (gp_cov_best e' tol L (X ++ Z) x Ht P' K)). rewrite !app_length. unfold vzero. rewrite repeat_length. congruence.
Qed.

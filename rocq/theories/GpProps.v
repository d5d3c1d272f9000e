(** Generated by tools/mkprops.py from tools/props/GpProps.spec: the property theorems. *)
Require Import Reals List Bool Arith ZArith.
From Verif Require Import RVec Num Sums DomModel DomMoreModel BasisModel MatLib SpecProofs LipModel GrassLib SubModel Deriv VarproLib GpModel GpKernel GpProofs GpFit GpGrad GpLml GpCases GpTril MoreCases.
Import ListNotations.
Local Open Scope R_scope.

Local Open Scope R_scope.

(** C61: predictions at the training points, trend, covariance *)
Theorem C61_interp : forall eigh tol tau B X y L, 0 <= tol -> 0 <= tau -> (0 < tau \/ distinct_pts L X) -> length y = length X ->
  eigh_post (length X + gp_n B) (gp_block tau B X L) (eigh (gp_block tau B X L)) -> kept tol (length X + gp_n B) (eigh (gp_block tau B X L)) ->
  let w := gp_weights eigh tol tau B X y L in
  (forall i, (i < length X)%nat -> gp_eval B X L w (nth i X []) = vget y i - tau * vget (fst w) i) /\
  (forall p, length p = gp_n B -> rsum (length X) (fun i => vget (fst w) i * dot (gp_v B (nth i X [])) p) = 0).
Proof. exact gp_interp. Qed.
Print Assumptions C61_interp.

Theorem C61_interp_plain : forall eigh tol tau X y L, 0 <= tol -> tol <= tau -> distinct_pts L X -> length y = length X ->
  eigh_post (length X) (gp_Kt tau (gp_K L X)) (eigh (gp_Kt tau (gp_K L X))) ->
  let w := gp_weights eigh tol tau None X y L in
  forall i, (i < length X)%nat -> gp_eval None X L w (nth i X []) = vget y i - tau * vget (fst w) i.
Proof. exact gp_interp_plain. Qed.
Print Assumptions C61_interp_plain.

Theorem C61_residual : forall eigh tol tau B X y L, 0 <= tol -> 0 <= tau -> (0 < tau \/ distinct_pts L X) -> length y = length X ->
  eigh_post (length X + gp_n B) (gp_block tau B X L) (eigh (gp_block tau B X L)) -> kept tol (length X + gp_n B) (eigh (gp_block tau B X L)) ->
  let w := gp_weights eigh tol tau B X y L in
  forall p, length p = gp_n B ->
  rsum (length X) (fun i => (vget y i - gp_eval B X L w (nth i X [])) * (vget y i - gp_eval B X L w (nth i X []))) <=
  rsum (length X) (fun i => (vget y i - dot (gp_v B (nth i X [])) p) * (vget y i - dot (gp_v B (nth i X [])) p)).
Proof. exact gp_residual. Qed.
Print Assumptions C61_residual.

Theorem C61_trend : forall eigh tol tau B X y L c, 0 <= tol -> 0 <= tau -> (0 < tau \/ distinct_pts L X) -> length y = length X ->
  eigh_post (length X + gp_n B) (gp_block tau B X L) (eigh (gp_block tau B X L)) -> kept tol (length X + gp_n B) (eigh (gp_block tau B X L)) ->
  length c = gp_n B -> (forall i, (i < length X)%nat -> vget y i = dot (gp_v B (nth i X [])) c) ->
  let w := gp_weights eigh tol tau B X y L in
  (forall i, (i < length X)%nat -> gp_eval B X L w (nth i X []) = vget y i) /\
  ((forall p, length p = gp_n B -> (forall i, (i < length X)%nat -> dot (gp_v B (nth i X [])) p = 0) -> p = vzero (gp_n B)) ->
   snd w = c /\ forall x, gp_eval B X L w x = dot (gp_v B x) c).
Proof. exact gp_trend. Qed.
Print Assumptions C61_trend.

Theorem C61_cov_range : forall e tol L X x, 0 <= tol -> eigh_post (length X) (gp_K L X) e ->
  0 <= gp_cov e tol L X x <= 1 /\ exists c, length c = length X /\ gp_cov e tol L X x = pred_var L X x c /\ gp_cov e tol L X x = 1 - dot (map (gk L x) X) c.
Proof. exact gp_cov_range. Qed.
Print Assumptions C61_cov_range.

Theorem C61_interp_refuted : exists eigh tol X y L, 0 < tol /\ length y = length X /\ eigh_post (length X) (gp_Kt tol (gp_K L X)) (eigh (gp_Kt tol (gp_K L X))) /\
  let w := gp_weights eigh tol tol None X y L in exists i, (i < length X)%nat /\ gp_eval None X L w (nth i X []) <> vget y i - tol * vget (fst w) i.
Proof. exact interp_refuted. Qed.
Print Assumptions C61_interp_refuted.

Example C61_case : let tau := / 10 in let w := gp_weights eigh2 tau tau None gX [1; 1] [[1]] in
  distinct_pts [[1]] gX /\ eigh_post 2 (gp_Kt tau (gp_K [[1]] gX)) (eigh2 (gp_Kt tau (gp_K [[1]] gX))) /\
  gp_eval None gX [[1]] w [0] = 1 - tau * vget (fst w) 0 /\ gp_eval None gX [[1]] w [1] = 1 - tau * vget (fst w) 1 /\ gp_eval None gX [[1]] w [0] <> 1.
Proof. exact interp_case. Qed.

Example C61_trend_case : 0 < gtau /\ eigh_post (length gX + gp_n (Some gB)) (gp_block gtau (Some gB) gX [[1]]) (eigh3 (gp_block gtau (Some gB) gX [[1]])) /\
  kept (/ 10) (length gX + gp_n (Some gB)) (eigh3 (gp_block gtau (Some gB) gX [[1]])) /\
  (forall x, gp_eval (Some gB) gX [[1]] (gp_weights eigh3 (/ 10) gtau (Some gB) gX [5; 5] [[1]]) x = 5) /\
  (let w := gp_weights eigh3 (/ 10) gtau (Some gB) gX [0; 1] [[1]] in gp_eval (Some gB) gX [[1]] w [1] = 1 - gtau * vget (fst w) 1 /\ vget (fst w) 0 + vget (fst w) 1 = 0).
Proof. exact trend_case. Qed.

Example C61_cov_case : eigh_post (length gX) (gp_K [[1]] gX) (eigh2 (gp_K [[1]] gX)) /\ (forall k, (k < 2)%nat -> / 10 < vget (fst (eigh2 (gp_K [[1]] gX))) k) /\
  gp_cov (eigh2 (gp_K [[1]] gX)) (/ 10) [[1]] gX [1] = 0.
Proof. exact cov_case. Qed.

(** C91: the kernel matrix *)
Theorem C91_psd : forall L X c, length c = length X -> 0 <= quad (gp_K L X) c.
Proof. exact kernel_psd. Qed.
Print Assumptions C91_psd.

Theorem C91_pd : forall L X c, distinct_pts L X -> length c = length X -> (exists i, vget c i <> 0) -> 0 < quad (gp_K L X) c.
Proof. exact kernel_pd. Qed.
Print Assumptions C91_pd.

Theorem C91_singular : forall L X i j, (i < length X)%nat -> (j < length X)%nat -> i <> j -> mv L (nth i X []) = mv L (nth j X []) ->
  exists c, length c = length X /\ vget c i = 1 /\ quad (gp_K L X) c = 0.
Proof. exact kernel_singular. Qed.
Print Assumptions C91_singular.

Theorem C91_eigenvalues : forall tau L X e, eigh_post (length X) (gp_Kt tau (gp_K L X)) e -> forall k, (k < length X)%nat ->
  tau <= vget (fst e) k /\ (distinct_pts L X -> tau < vget (fst e) k).
Proof. exact Kt_eigs. Qed.
Print Assumptions C91_eigenvalues.

Theorem C91_distinct_const : forall m X ell, Forall (fun x => length x = m) X -> NoDup X -> distinct_pts (make_L GConst m ell) X.
Proof. exact distinct_const. Qed.
Print Assumptions C91_distinct_const.

Theorem C91_distinct_diag : forall m X ell, Forall (fun x => length x = m) X -> NoDup X -> length ell = m -> distinct_pts (make_L GDiag m ell) X.
Proof. exact distinct_diag. Qed.
Print Assumptions C91_distinct_diag.

Example C91_case : distinct_pts [[1]] gX /\ 0 < quad (gp_K [[1]] gX) [1; -1] /\ quad (gp_K [[0]] gX) [1; -1] = 0.
Proof. exact kernel_case. Qed.

(** C98: gradient of the objective *)
Theorem C98_kernel_derivative : forall st dexpm m X ell k i j, Forall (fun x => length x = m) X -> ell_ok st m ell -> (k < length ell)%nat -> dexp_ok st dexpm m ell k ->
  (i < length X)%nat -> (j < length X)%nat ->
  derivable_pt_lim (fun t => gk (make_L st m (ell_line ell k t)) (nth i X []) (nth j X [])) 0 (mget (gp_dK st dexpm m X ell k) i j).
Proof. exact dK_correct. Qed.
Print Assumptions C98_kernel_derivative.

Theorem C98_logdet : forall n (A : R -> mat) dA (e : R -> vec * list vec) mu, 0 < mu -> (forall t, sq n (A t)) -> (forall t, msym n (A t)) -> sq n dA ->
  (forall t, eigh_post n (A t) (e t)) -> (forall t k, (k < n)%nat -> mu <= vget (fst (e t)) k) ->
  (forall i j, (i < n)%nat -> (j < n)%nat -> derivable_pt_lim (fun t => mget (A t) i j) 0 (mget dA i j)) ->
  derivable_pt_lim (fun t => vsum (map ln (fst (e t)))) 0 (rsum n (fun k => quad dA (nth k (snd (e 0)) []) / vget (fst (e 0)) k)).
Proof. exact logdet_derivative. Qed.
Print Assumptions C98_logdet.

Theorem C98_gradient : forall eigh tol tau B st dexpm m X y ell k, 0 <= tol -> 0 < tau -> length y = length X -> Forall (fun x => length x = m) X ->
  ell_ok st m ell -> (k < length ell)%nat -> dexp_ok st dexpm m ell k ->
  (forall l, length l = length ell -> eigh_post (length X) (gp_Kt tau (gp_K (make_L st m l) X)) (eigh (gp_Kt tau (gp_K (make_L st m l) X)))) ->
  (forall l, length l = length ell -> eigh_post (length X + gp_n B) (gp_block tau B X (make_L st m l)) (eigh (gp_block tau B X (make_L st m l)))) ->
  (forall i, (i < length X + gp_n B)%nat -> tol < Rabs (vget (fst (eigh (gp_block tau B X (make_L st m ell)))) i)) ->
  derivable_pt_lim (fun t => gp_lml eigh tol tau B st m X y (ell_line ell k t)) 0 (gp_lml_grad eigh tol tau B st dexpm m X y ell k).
Proof. exact gp_gradient. Qed.
Print Assumptions C98_gradient.

Theorem C98_gradient_plain : forall eigh tol tau st dexpm m X y ell k, 0 <= tol -> tol <= tau -> 0 < tau -> length y = length X -> Forall (fun x => length x = m) X ->
  ell_ok st m ell -> (k < length ell)%nat -> dexp_ok st dexpm m ell k -> distinct_pts (make_L st m ell) X ->
  (forall l, length l = length ell -> eigh_post (length X) (gp_Kt tau (gp_K (make_L st m l) X)) (eigh (gp_Kt tau (gp_K (make_L st m l) X)))) ->
  derivable_pt_lim (fun t => gp_lml eigh tol tau None st m X y (ell_line ell k t)) 0 (gp_lml_grad eigh tol tau None st dexpm m X y ell k).
Proof. exact gp_gradient_plain. Qed.
Print Assumptions C98_gradient_plain.

Example C98_case : exists eigh, distinct_pts (make_L GConst 1 [0]) gX /\ ell_ok GConst 1 [0] /\
  (forall l, length l = 1%nat -> eigh_post (length gX) (gp_Kt (/ 10) (gp_K (make_L GConst 1 l) gX)) (eigh (gp_Kt (/ 10) (gp_K (make_L GConst 1 l) gX)))) /\
  derivable_pt_lim (fun t => gp_lml eigh (/ 10) (/ 10) None GConst 1 gX [1; 2] (ell_line [0] 0 t)) 0 (gp_lml_grad eigh (/ 10) (/ 10) None GConst (fun _ => []) 1 gX [1; 2] [0] 0).
Proof. exact gradient_case. Qed.

Theorem C98_tril_bijective : forall e m, (forall T, lower m T -> tril_mat m (gp_ell0 (GTril e) m T) = T) /\
  (forall ell, length ell = (m * (m + 1) / 2)%nat -> lower m (tril_mat m ell) /\ gp_ell0 (GTril e) m (tril_mat m ell) = ell).
Proof. exact tril_bijective. Qed.
Print Assumptions C98_tril_bijective.

Example C98_tril_case : dexp_ok (GTril (fun A => [[exp (mget A 0 0)]])) (fun _ => [[exp 2]]) 1 [2] 0 /\ ell_ok (GTril (fun A => [[exp (mget A 0 0)]])) 1 [2].
Proof. exact tril_case. Qed.

Example C98_tril_bijective_case : lower 2 [[1; 0]; [2; 3]] /\ gp_ell0 (GTril (fun m => m)) 2 [[1; 0]; [2; 3]] = [1; 2; 3] /\ tril_mat 2 [1; 2; 3] = [[1; 0]; [2; 3]].
Proof. exact tril_bij_case. Qed.

(** C99: data term *)
Theorem C99_data_term : forall eigh tol tau B X y L, 0 <= tol -> 0 <= tau -> (0 < tau \/ distinct_pts L X) -> length y = length X ->
  eigh_post (length X + gp_n B) (gp_block tau B X L) (eigh (gp_block tau B X L)) -> kept tol (length X + gp_n B) (eigh (gp_block tau B X L)) ->
  let w := gp_weights eigh tol tau B X y L in
  dot y (fst w) = quad (gp_Kt tau (gp_K L X)) (fst w) /\ 0 <= dot y (fst w) /\
  (forall p, length p = gp_n B -> rsum (length X) (fun i => (vget y i - dot (gp_v B (nth i X [])) p) * vget (fst w) i) = dot y (fst w)) /\
  (forall b a, length b = gp_n B -> length a = length X -> (forall i, (i < length X)%nat -> vget (mv (gp_Kt tau (gp_K L X)) a) i = vget y i - dot (gp_v B (nth i X [])) b) ->
    dot y (fst w) <= quad (gp_Kt tau (gp_K L X)) a).
Proof. exact gp_data_term. Qed.
Print Assumptions C99_data_term.

Example C99_case : 0 < gtau /\ eigh_post (length gX + gp_n (Some gB)) (gp_block gtau (Some gB) gX [[1]]) (eigh3 (gp_block gtau (Some gB) gX [[1]])) /\
  kept (/ 10) (length gX + gp_n (Some gB)) (eigh3 (gp_block gtau (Some gB) gX [[1]])) /\
  (forall x, gp_eval (Some gB) gX [[1]] (gp_weights eigh3 (/ 10) gtau (Some gB) gX [5; 5] [[1]]) x = 5) /\
  (let w := gp_weights eigh3 (/ 10) gtau (Some gB) gX [0; 1] [[1]] in gp_eval (Some gB) gX [[1]] w [1] = 1 - gtau * vget (fst w) 1 /\ vget (fst w) 0 + vget (fst w) 1 = 0).
Proof. exact trend_case. Qed.

(** C100: covariance *)
Theorem C100_best : forall e tol L X x, 0 <= tol -> eigh_post (length X) (gp_K L X) e -> (forall k, (k < length X)%nat -> tol < vget (fst e) k \/ vget (fst e) k = 0) ->
  (forall c, length c = length X -> gp_cov e tol L X x <= pred_var L X x c) /\ (exists c, length c = length X /\ gp_cov e tol L X x = pred_var L X x c) /\
  (forall i, (i < length X)%nat -> x = nth i X [] -> gp_cov e tol L X x = 0).
Proof. exact gp_cov_best. Qed.
Print Assumptions C100_best.

Example C100_case : eigh_post (length gX) (gp_K [[1]] gX) (eigh2 (gp_K [[1]] gX)) /\ (forall k, (k < 2)%nat -> / 10 < vget (fst (eigh2 (gp_K [[1]] gX))) k) /\
  gp_cov (eigh2 (gp_K [[1]] gX)) (/ 10) [[1]] gX [1] = 0.
Proof. exact cov_case. Qed.

(** C101: starting value *)
Theorem C101_start_refuted : forall m, (0 < m)%nat -> make_L GConst m (gp_ell0 GConst m (eye m)) <> eye m /\ make_L GDiag m (gp_ell0 GDiag m (eye m)) <> eye m.
Proof. exact start_refuted. Qed.
Print Assumptions C101_start_refuted.

Theorem C101_start : forall m L0, make_L GConst m (gp_ell0 GConst m L0) = mscale (exp (mget L0 0 0)) (eye m) /\
  make_L GDiag m (gp_ell0 GDiag m L0) = diag (map (fun i => exp (mget L0 i i)) (seq 0 m)).
Proof. exact start_value. Qed.
Print Assumptions C101_start.

Example C101_case : make_L GDiag 2 (gp_ell0 GDiag 2 [[0; 0]; [0; 1]]) = [[1; 0]; [0; exp 1]].
Proof. exact start_case. Qed.

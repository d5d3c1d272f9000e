(** Generated by tools/mkprops.py from tools/props/RFitProps.spec: the property theorems. *)
Require Import Reals List Bool Arith ZArith.
From Verif Require Import RVec Num Sums DomModel DomMoreModel SweepProofs HullProofs HullIneqProofs Deriv ArnoldiMoreProofs BasisModel IndexProofs PolyProofs MatLib SpecProofs GrassLib LipModel LipFitProofs PartialProofs SubModel ActiveProofs RidgeModel RidgeProofs TrajProofs PolySpan VarproLib VarproProofs VarproCases GnStep RidgeFitProofs RidgeAffine RidgeFinish FinishCases OptModel OptProofs SeqProofs SolveFit RFitModel RFitProofs RFitMore RFitEx RFitEx2 RFitTight.
Import ListNotations.
Local Open Scope R_scope.

Local Open Scope R_scope.

(** C139: PolynomialRidgeApproximation.fit from the arguments to the stored U and coef *)
Theorem C139_correct : forall E m n d p bd rot X f U0 us B c, env_ok E m n d p bd X f -> Forall (fun x => length x = m) X -> pr_fit E m n d p bd rot X f U0 = Fitted us B c -> ~ (n = 1%nat /\ d = 1%nat) ->
  independent m (start E n U0) -> (rot = false \/ forall u, In u us -> u <> vzero m) ->
  good m n us /\ basis_ok B n /\ tb_deg B = d /\ length c = length (indices B) /\ on_side bd X f (ridge_eval B c us) /\
  forall B' n' us' c', basis_ok B' n' -> (tb_deg B' <= d)%nat -> length us' = n' -> (forall u, In u us' -> spans m us u) \/ (forall u, In u us' -> spans m (start E n U0) u) ->
    length c' = length (indices B') -> on_side bd X f (ridge_eval B' c' us') -> misfit p X f (ridge_eval B c us) <= misfit p X f (ridge_eval B' c' us').
Proof. exact fit_correct. Qed.
Print Assumptions C139_correct.

Example C139_correct_case_sup : env_ok E1 2 1 2 Ninf NoBound zX f1 /\ Forall (fun x => length x = 2%nat) zX /\ pr_fit E1 2 1 2 Ninf NoBound true zX f1 (Some v2) = Fitted gU gB [0; 1; 0] /\ ~ (1%nat = 1%nat /\ 2%nat = 1%nat) /\ independent 2 (start E1 1 (Some v2)) /\ (forall u, In u gU -> u <> vzero 2) /\
  misfit Ninf zX f1 (ridge_eval (fst (e_fitc E1 v2)) (snd (e_fitc E1 v2)) v2) = 1 /\ misfit Ninf zX f1 (ridge_eval gB [0; 1; 0] gU) = 0.
Proof. exact fit_case_inf. Qed.

Example C139_correct_case_two : env_ok E2 2 1 2 BasisModel.N2 NoBound zX f1 /\ is_two BasisModel.N2 NoBound = true /\ pr_fit E2 2 1 2 BasisModel.N2 NoBound true zX f1 (Some v2) = Fitted gU gB [0; 1; 0] /\ independent 2 (start E2 1 (Some v2)) /\ (forall u, In u gU -> u <> vzero 2) /\
  misfit BasisModel.N2 zX f1 (ridge_eval (fst (e_fitc E2 v2)) (snd (e_fitc E2 v2)) v2) = sqrt 2.
Proof. exact fit_case_two. Qed.

Theorem C139_recovers : forall E m n d p bd rot X U0 us B c B' n' us' c', let f := map (ridge_eval B' c' us') X in
  env_ok E m n d p bd X f -> Forall (fun x => length x = m) X -> pr_fit E m n d p bd rot X f U0 = Fitted us B c -> ~ (n = 1%nat /\ d = 1%nat) ->
  independent m (start E n U0) -> (rot = false \/ forall u, In u us -> u <> vzero m) ->
  basis_ok B' n' -> (tb_deg B' <= d)%nat -> length us' = n' -> (forall u, In u us' -> spans m (start E n U0) u) -> length c' = length (indices B') ->
  forall x, In x X -> ridge_eval B c us x = ridge_eval B' c' us' x.
Proof. exact fit_recovers. Qed.
Print Assumptions C139_recovers.

Example C139_recovers_case : let f := map (ridge_eval gB [0; 1; 0] gU) zX in f = f1 /\ env_ok E6 2 1 2 Ninf NoBound zX f /\ (forall u, In u gU -> spans 2 (start E6 1 (Some gU)) u) /\ independent 2 (start E6 1 (Some gU)) /\ basis_ok gB 1 /\
  exists us B c, pr_fit E6 2 1 2 Ninf NoBound false zX f (Some gU) = Fitted us B c /\ forall x, In x zX -> ridge_eval B c us x = vget x 0.
Proof. exact fit_case_recovers. Qed.

Theorem C139_affine : forall E m p rot X f U0 us B c g e, env_ok E m 1 1 p NoBound X f -> Forall (fun x => length x = m) X -> vmin f < vmax f -> aff_b_returns p NoBound m X f (e_aff E) -> norm2 (aff_g m X (e_aff E)) <> 0 ->
  pr_fit E m 1 1 p NoBound rot X f U0 = Fitted us B c -> length g = m -> good m 1 us /\ misfit p X f (ridge_eval B c us) <= misfit p X f (fun x => dot g x + e).
Proof. exact fit_affine_optimal. Qed.
Print Assumptions C139_affine.

Example C139_affine_case : env_ok E4 2 1 1 BasisModel.N2 NoBound zX f1 /\ Forall (fun x => length x = 2%nat) zX /\ vmin f1 < vmax f1 /\ aff_b_returns BasisModel.N2 NoBound 2 zX f1 (e_aff E4) /\ norm2 (aff_g 2 zX (e_aff E4)) <> 0 /\
  exists us B c, pr_fit E4 2 1 1 BasisModel.N2 NoBound true zX f1 None = Fitted us B c.
Proof. exact fit_case_affine. Qed.

Theorem C139_stored_basis : forall E m n d p bd X f us0, env_ok E m n d p bd X f -> good m n us0 ->
  option_map fst (alt_run E m n p bd X f us0) = sequential_lp (alt_fresh E m n X f) (alt_norm p) (fun x q t => fst (alt_traj (e_fitc E) (e_qr E) (e_svd E) m n x q t))
    (e_lp E) (alt_lb bd (length X)) (alt_ub bd (length X)) (e_tolx E) (e_tol_obj E) (e_verbose E) (e_btmax E) (e_maxiter E) (alt_pack m us0 (snd (e_fitc E us0))).
Proof. exact alt_stored_basis. Qed.
Print Assumptions C139_stored_basis.

Example C139_stored_case : env_ok E1 2 1 2 Ninf NoBound zX f1 /\ good 2 1 v2 /\ fit_alternating E1 2 1 Ninf NoBound zX f1 v2 = Some gU.
Proof. exact fit_case_stored. Qed.

Theorem C139_square_raises : forall E m d p bd rot X f U0, env_ok E m m d p bd X f -> is_two p bd = true -> length f = length X -> pr_enough m m d (length X) = true -> ~ (m = 1%nat /\ d = 1%nat) ->
  length (start E m U0) = m -> Forall (fun u => length u = m) (start E m U0) -> independent m (start E m U0) -> (0 < e_maxiter E)%nat -> pr_fit E m m d p bd rot X f U0 = Raises.
Proof. exact fit_square_raises. Qed.
Print Assumptions C139_square_raises.

Example C139_square_case : env_ok E5 1 1 2 BasisModel.N2 NoBound sX sF /\ is_two BasisModel.N2 NoBound = true /\ pr_enough 1 1 2 (length sX) = true /\ independent 1 (start E5 1 (Some [[1]])) /\ (0 < e_maxiter E5)%nat.
Proof. exact fit_case_square. Qed.

Theorem C139_square_refuted : exists E X f U0, env_ok E 1 1 2 BasisModel.N2 NoBound X f /\ length f = length X /\ pr_enough 1 1 2 (length X) = true /\ independent 1 (start E 1 (Some U0)) /\ pr_fit E 1 1 2 BasisModel.N2 NoBound true X f (Some U0) = Raises.
Proof. exact fit_square_refuted. Qed.
Print Assumptions C139_square_refuted.

Theorem C139_jacobian_contract : forall B m n us X f c ys s zs sv, gn_pre B m n us X f c ys s zs -> svd_post (length X) (gn_jac B m us X f c ys s zs) (fst (fst sv)) (snd (fst sv)) (snd sv) ->
  jac_ok m n (length X) us (rows_of_cols (length X) (gn_jac B m us X f c ys s zs)) sv.
Proof. exact varpro_jac_contract. Qed.
Print Assumptions C139_jacobian_contract.

Example C139_jacobian_case : jac_ok 2 1 (length exX) [[1; 0]] (rows_of_cols (length exX) (gn_jac exB 2 [[1; 0]] exX exF (exC [[1; 0]]) exY exS exZ)) (exYJ, exSJ, exZJ).
Proof. exact fit_case_jac. Qed.

Theorem C139_erases : forall E p bd us B c, env_ok E 2 1 2 p bd zX zf -> pr_fit E 2 1 2 p bd true zX zf (Some gU) = Fitted us B c ->
  us = [[0; 0]] /\ (forall x y, length x = 2%nat -> length y = 2%nat -> ridge_eval B c us x = ridge_eval B c us y) /\ 0 < misfit p zX zf (ridge_eval B c us) /\ misfit p zX zf (ridge_eval gB [0; 0; 1] gU) = 0.
Proof. exact fit_erases. Qed.
Print Assumptions C139_erases.

Theorem C139_erases_refuted : exists E us B c, env_ok E 2 1 2 Ninf NoBound zX zf /\ pr_fit E 2 1 2 Ninf NoBound true zX zf (Some gU) = Fitted us B c /\ us = [[0; 0]] /\
  misfit Ninf zX zf (ridge_eval (fst (e_fitc E gU)) (snd (e_fitc E gU)) gU) = 0 /\ 0 < misfit Ninf zX zf (ridge_eval B c us).
Proof. exact fit_erases_refuted. Qed.
Print Assumptions C139_erases_refuted.

(** the steps taken and the basis stored at the end *)
Theorem C139_first_step : forall E m n d p bd X f us q, env_ok E m n d p bd X f -> length f = length X -> good m n us -> e_maxiter E = 1%nat -> (0 < e_btmax E)%nat ->
  let fitted := fun v => ridge_eval (fst (e_fitc E v)) (snd (e_fitc E v)) v in
  let x := flat m us ++ snd (e_fitc E us) in
  e_lp E x (vsub (map (fitted us) X) f) None = LOpt q ->
  let us' := pr_alt_traj (e_qr E) (e_svd E) m us (unflat m n (firstn (m * n) q)) 1 in
  all_same (e_tolx E) x (flat m us' ++ snd (e_fitc E us')) = false -> misfit p X f (fitted us') < misfit p X f (fitted us) ->
  fit_alternating E m n p bd X f us = Some us'.
Proof. exact alt_first_step. Qed.
Print Assumptions C139_first_step.

Example C139_first_step_case : let fitted := fun v => ridge_eval (fst (fit_inf v)) (snd (fit_inf v)) v in let x := flat 2 v2 ++ snd (fit_inf v2) in
  env_ok E1one 2 1 2 Ninf NoBound zX f1 /\ good 2 1 v2 /\ e_lp E1one x (vsub (map (fitted v2) zX) f1) None = LOpt [PI / 2; 0; 0; 0; 0] /\ pr_alt_traj ex_qr ex_svd 2 v2 (unflat 2 1 (firstn (2 * 1) [PI / 2; 0; 0; 0; 0])) 1 = gU /\
  all_same (1/10) x (flat 2 gU ++ snd (fit_inf gU)) = false /\ misfit Ninf zX f1 (fitted gU) < misfit Ninf zX f1 (fitted v2) /\ fit_alternating E1one 2 1 Ninf NoBound zX f1 v2 = Some gU.
Proof. exact first_step_case. Qed.

Theorem C139_final_basis : forall E m n p bd X f us s B, good m n us -> alt_run E m n p bd X f us = Some (s, B) -> B = fst (e_fitc E (alt_us m n (l_x s))).
Proof. exact alt_final_basis. Qed.
Print Assumptions C139_final_basis.

Example C139_final_basis_case : good 2 1 v2 /\ exists s B, alt_run E1 2 1 Ninf NoBound zX f1 v2 = Some (s, B) /\ alt_us 2 1 (l_x s) = gU /\ B = gB.
Proof. exact final_basis_case. Qed.

Theorem C139_line_search : forall E m n X f g q x xn a fn, let res := vp_flat (e_fitc E) m n X f in let move := fun t => flat m (pr_traj (e_qr E) (e_svd E) m (unflat m n x) (unflat m n q) t) in
  let enough := fun t => norm2 (res (move t)) < norm2 (res x) + t / 10000 * dot g q in
  vp_ls E m n X f g q x = Some (xn, a, fn) -> fn = res xn /\
  ((exists k, (k < 40)%nat /\ enough ((1/2) ^ k)) -> exists k, (k < 40)%nat /\ a = (1/2) ^ k /\ xn = move a /\ enough a /\ forall j, (j < k)%nat -> ~ enough ((1/2) ^ j)) /\
  ((forall k, (k < 40)%nat -> ~ enough ((1/2) ^ k)) -> xn = x /\ a = 0).
Proof. exact varpro_line_search. Qed.
Print Assumptions C139_line_search.

Example C139_line_search_case : vp_ls E2 2 1 zX f1 [- kap; 0] [PI / 2; 0] [0; 1] = Some ([1; 0], 1, [0; 0; 0; 0]).
Proof. exact line_search_case. Qed.

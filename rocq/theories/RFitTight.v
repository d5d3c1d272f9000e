(** PolynomialRidgeApproximation.fit: which steps the alternating and the Gauss-Newton method take, and the basis that is stored at the end. *)
Require Import Reals Lra Lia List Bool Arith ZArith.
From Verif Require Import RVec Num Sums DomModel DomMoreModel SweepProofs HullProofs HullIneqProofs Deriv ArnoldiMoreProofs BasisModel IndexProofs PolyProofs MatLib SpecProofs GrassLib LipModel LipFitProofs PartialProofs SubModel ActiveProofs RidgeModel RidgeProofs TrajProofs PolySpan VarproLib VarproProofs VarproCases GnStep RidgeFitProofs RidgeAffine RidgeFinish FinishCases OptModel OptProofs SeqProofs SolveFit RFitModel RFitProofs RFitMore RFitEx RFitEx2.
Import ListNotations.
Local Open Scope R_scope.

Lemma zip_zero : forall (g : R -> R -> R) n r, (forall b, In b r -> g 0 b = 0) -> vsum (zipw g (vzero n) r) = 0.
Proof.
  intros g n. unfold vzero. induction n as [|n IH]; intros r H; [reflexivity|]. destruct r as [|b r]; [reflexivity|]. cbn [repeat zipw]. rewrite vsum_cons, H by (simpl; auto).
  rewrite IH; [ring|]. intros c I. apply H. simpl. auto.
Qed.
Lemma side_viol : forall bd n r, fit_con bd r -> viol (alt_lb bd n) (alt_ub bd n) r = 0.
Proof.
  intros bd n r H. unfold viol, alt_lb, alt_ub. destruct bd; cbn [fit_con] in H.
  - ring.
  - rewrite zip_zero; [ring|]. intros b I. rewrite Forall_forall in H. specialize (H b I). destruct (Rleb b 0) eqn:E; auto. apply Rleb_false in E. lra.
  - rewrite zip_zero; [ring|]. intros b I. rewrite Forall_forall in H. specialize (H b I). destruct (Rleb 0 b) eqn:E; auto. apply Rleb_false in E. lra.
Qed.
(** the step of the first linear program is taken whenever it lowers the misfit: the bound on the side of the data never stands in its way *)
Theorem alt_first_step : forall E m n d p bd X f us q, env_ok E m n d p bd X f -> length f = length X -> good m n us -> e_maxiter E = 1%nat -> (0 < e_btmax E)%nat ->
  let fitted := fun v => ridge_eval (fst (e_fitc E v)) (snd (e_fitc E v)) v in
  let x := flat m us ++ snd (e_fitc E us) in
  e_lp E x (vsub (map (fitted us) X) f) None = LOpt q ->
  let us' := pr_alt_traj (e_qr E) (e_svd E) m us (unflat m n (firstn (m * n) q)) 1 in
  all_same (e_tolx E) x (flat m us' ++ snd (e_fitc E us')) = false -> misfit p X f (fitted us') < misfit p X f (fitted us) ->
  fit_alternating E m n p bd X f us = Some us'.
Proof.
  intros E m n d p bd X f us q OK Lf G M1 BT fitted x HL us' NS LT.
  destruct (alt_step E m n d p bd X f OK x q (ex_intro _ us (conj G eq_refl))) as [(v & Gv & EV) FR].
  assert (TX : alt_traj (e_fitc E) (e_qr E) (e_svd E) m n x q 1 = (flat m us' ++ snd (e_fitc E us'), fst (e_fitc E us'))).
  { unfold alt_traj. change x with (alt_pack m us (snd (e_fitc E us))). rewrite alt_us_pack by auto. reflexivity. }
  rewrite TX in EV, FR. cbn [fst snd] in EV, FR.
  assert (LU : forall t, length (unflat m n t) = n /\ Forall (fun u => length u = m) (unflat m n t)) by (intro; apply unflat_len).
  assert (GU : good m n us').
  { destruct OK as [_ [HQ [HS _]]]. pose proof G as [Lu [FU OU]]. set (ds := unflat m n (firstn (m * n) q)) in *. destruct (LU (firstn (m * n) q)) as [LD FD]. fold ds in LD, FD.
    assert (OKU : orth (e_qr E) us = us) by (apply (orth_keeps (e_qr E) m); auto).
    destruct (alt_traj_orthonormal (e_qr E) (e_svd E) m us ds 1) as [A1 [A2 [A3 _]]]; auto; [apply orth_indep; auto|lia| |].
    - rewrite OKU. apply HS; [unfold horiz; rewrite map_length; auto|]. unfold horiz. apply Forall_forall. intros w I. apply in_map_iff in I. destruct I as [e [<- Ie]]. rewrite Forall_forall in FD. rewrite vsub_length; rewrite ?lincomb_length; auto.
    - split; [unfold us'; lia|auto]. }
  assert (RS : forall w, good m n w -> alt_res m n X f (fst (e_fitc E w)) (flat m w ++ snd (e_fitc E w)) = vsub (map (fitted w) X) f).
  { intros w Gw. unfold alt_res. change (flat m w ++ snd (e_fitc E w)) with (alt_pack m w (snd (e_fitc E w))). rewrite alt_us_pack, alt_c_pack by auto. apply pr_residual_map. }
  assert (SD : fit_con bd (vsub (map (fitted us') X) f)) by (destruct OK as [HF _]; destruct (HF us' GU) as (_ & _ & CR); apply (coef_side p bd _ us' X f _ Lf CR)).
  unfold fit_alternating, alt_run, sequential_lp_st. rewrite M1. change (alt_pack m us (snd (e_fitc E us))) with x. replace (alt_res m n X f (fst (e_fitc E us)) x) with (vsub (map (fitted us) X) f) by (symmetry; apply RS; auto).
  destruct (e_btmax E) as [|k]; [lia|]. cbn [sls_loop sls_in l_x l_f l_obj l_Delta l_stop l_px l_cv l_hist]. rewrite HL, TX, NS, RS by auto.
  rewrite (side_viol bd _ _ SD), !alt_norm_obj. fold (misfit p X f (fitted us')). fold (misfit p X f (fitted us)).
  assert (C1 : Rltb (misfit p X f (fitted us')) (misfit p X f (fitted us)) = true) by (apply Rltb_true; auto). assert (C2 : Rleb (Rabs 0) (/ 10000000000) = true) by (apply Rleb_true; rewrite Rabs_R0; lra). rewrite C1, C2. cbn [andb orb l_px l_cv negb].
  rewrite andb_false_r. assert (RT : alt_us m n (flat m us' ++ snd (e_fitc E us')) = us') by (apply (alt_us_pack m n us' (snd (e_fitc E us'))); auto).
  destruct (l_stop _ || _)%bool; cbn [l_x]; rewrite RT; reflexivity.
Qed.
(** the basis stored when the method ends is that of the final subspace *)
Theorem alt_final_basis : forall E m n p bd X f us s B, good m n us -> alt_run E m n p bd X f us = Some (s, B) -> B = fst (e_fitc E (alt_us m n (l_x s))).
Proof.
  intros E m n p bd X f us s B _. unfold alt_run, sequential_lp_st. set (js := fun x => fst (e_fitc E (alt_us m n x))).
  assert (L : forall g nm tr so lb ub td to vb bt k s0 s1 b1, sls_loop g nm tr js so lb ub td to vb bt k (js (l_x s0)) s0 = Some (s1, b1) -> b1 = js (l_x s1)).
  { intros g nm tr so lb ub td to vb bt k. induction k as [|k IH]; intros s0 s1 b1 H; cbn [sls_loop] in H; [injection H as <- <-; reflexivity|].
    destruct (sls_in _ _ _ _ _ _ _ _ bt true _ _) as [[s' last] b']. destruct (vb && _)%bool; [discriminate|]. destruct (l_stop s' || last)%bool; [injection H as <- <-; reflexivity|]. apply (IH s'). exact H. }
  intro H. exact (L _ _ _ _ _ _ _ _ _ _ _ (mkSl _ _ _ 1 false false false _) s B H).
Qed.
(** the line search of the Gauss-Newton method stays where it is only if none of the steps 1, 1/2, ..., 2^-39 decreases the residual enough; otherwise it takes the longest of them that does *)
Theorem varpro_line_search : forall E m n X f g q x xn a fn, let res := vp_flat (e_fitc E) m n X f in let move := fun t => flat m (pr_traj (e_qr E) (e_svd E) m (unflat m n x) (unflat m n q) t) in
  let enough := fun t => norm2 (res (move t)) < norm2 (res x) + t / 10000 * dot g q in
  vp_ls E m n X f g q x = Some (xn, a, fn) -> fn = res xn /\
  ((exists k, (k < 40)%nat /\ enough ((1/2) ^ k)) -> exists k, (k < 40)%nat /\ a = (1/2) ^ k /\ xn = move a /\ enough a /\ forall j, (j < k)%nat -> ~ enough ((1/2) ^ j)) /\
  ((forall k, (k < 40)%nat -> ~ enough ((1/2) ^ k)) -> xn = x /\ a = 0).
Proof.
  intros E m n X f g q x xn a fn res move enough H. unfold vp_ls in H. apply armijo_correct in H. destruct H as [_ (v & V & H)]. injection V as <-. fold res in H. fold res.
  assert (AC : forall t, accepts (fun y => Some (res y)) (fun y p t => Some (flat m (pr_traj (e_qr E) (e_svd E) m (unflat m n y) (unflat m n p) t))) q x (/ 10000) (dot g q) (norm2 (res x)) t <-> enough t).
  { intro t. unfold accepts, enough, Rdiv. split; [intros (y & fy & Y & F & A); injection Y as <-; injection F as <-; exact A|intro A; exists (move t), (res (move t)); auto]. }
  destruct H as [(-> & -> & -> & N)|(k & Hk & -> & Y & F & A & N)].
  - split; [reflexivity|]. split; [|auto]. intros (k & Hk & Q). exfalso. apply (N k Hk). apply AC. exact Q.
  - injection Y as <-. injection F as <-. split; [reflexivity|]. split.
    + intros _. exists k. split; auto. split; auto. split; auto. split; [exact A|]. intros j Hj Q. apply (N j Hj). apply AC. exact Q.
    + intro Q. exfalso. apply (Q k Hk). exact A.
Qed.
Definition E1one : fit_env := mkEnv fit_inf [] [] ex_qr ex_svd (fun _ => [[1]]) (fun _ => []) (fun _ => ([], [], [])) ex_lp false (1/10) (1/10) (1/10) 2 1.
Lemma E1_moves : pr_alt_traj ex_qr ex_svd 2 v2 (unflat 2 1 (firstn (2 * 1) [PI / 2; 0; 0; 0; 0])) 1 = gU.
Proof.
  change (unflat 2 1 (firstn (2 * 1) [PI / 2; 0; 0; 0; 0])) with [[PI / 2; 0]]. unfold pr_alt_traj. rewrite (ex_orth v2 v2_good). replace (horiz 2 v2 [[PI / 2; 0]]) with [[PI / 2; 0]].
  - pose proof ex_geo as G. destruct (ex_svd [[PI / 2; 0]]) as [[ys s] zs]. exact G.
  - unfold horiz, v2, mv, lincomb, vadd, vscale, vsub. cbn [map]. rewrite !dot_cons, !dot_nil_l. cbn. repeat (apply f_equal2; [repeat (apply f_equal2; [ring|]); reflexivity|]). reflexivity.
Qed.
Lemma one_same : all_same (1/10) [0; 1; 0; 0; 0] [1; 0; 0; 1; 0] = false.
Proof. unfold all_same. cbn. assert (R : Rleb (Rabs (0 - 1)) (1/10 * Rabs 1) = false) by (apply Rleb_false; rewrite Rabs_R1; replace (0 - 1) with (- (1)) by ring; rewrite Rabs_Ropp, Rabs_R1; lra). rewrite R. reflexivity. Qed.
(** the plane wave data of C139's case: the first program turns e2 into e1 and the misfit falls from 1 to 0 *)
Example first_step_case : let fitted := fun v => ridge_eval (fst (fit_inf v)) (snd (fit_inf v)) v in let x := flat 2 v2 ++ snd (fit_inf v2) in
  env_ok E1one 2 1 2 Ninf NoBound zX f1 /\ good 2 1 v2 /\ e_lp E1one x (vsub (map (fitted v2) zX) f1) None = LOpt [PI / 2; 0; 0; 0; 0] /\ pr_alt_traj ex_qr ex_svd 2 v2 (unflat 2 1 (firstn (2 * 1) [PI / 2; 0; 0; 0; 0])) 1 = gU /\
  all_same (1/10) x (flat 2 gU ++ snd (fit_inf gU)) = false /\ misfit Ninf zX f1 (fitted gU) < misfit Ninf zX f1 (fitted v2) /\ fit_alternating E1one 2 1 Ninf NoBound zX f1 v2 = Some gU.
Proof.
  intros fitted x.
  assert (A1 : env_ok E1one 2 1 2 Ninf NoBound zX f1) by exact E1_ok.
  assert (X0 : x = [0; 1; 0; 0; 0]) by exact pack_v2. assert (X1 : flat 2 gU ++ snd (fit_inf gU) = [1; 0; 0; 1; 0]) by exact pack_gU.
  assert (A3 : e_lp E1one x (vsub (map (fitted v2) zX) f1) None = LOpt [PI / 2; 0; 0; 0; 0]).
  { rewrite X0. cbn [e_lp E1one]. unfold ex_lp, vget. cbn [nth]. destruct (Req_EM_T 0 0) as [_|]; [reflexivity|congruence]. }
  assert (A5 : all_same (1/10) x (flat 2 gU ++ snd (fit_inf gU)) = false) by (rewrite X0, X1; exact one_same).
  assert (A6 : misfit Ninf zX f1 (fitted gU) < misfit Ninf zX f1 (fitted v2)).
  { pose proof fit_case_inf as (_ & _ & _ & _ & _ & _ & M0 & M1). change (misfit Ninf zX f1 (fitted v2) = 1) in M0. assert (G : fit_inf gU = (gB, [0; 1; 0])) by (unfold fit_inf, gU, vget; cbn [nth]; rewrite slope10; reflexivity). unfold fitted at 1. rewrite G. cbn [fst snd]. lra. }
  repeat (split; [first [exact A1|exact v2_good|exact A3|exact E1_moves|exact A5|exact A6]|]).
  pose proof (alt_first_step E1one 2 1 2 Ninf NoBound zX f1 v2 [PI / 2; 0; 0; 0; 0] A1 eq_refl v2_good eq_refl) as H. cbn [e_btmax E1one] in H. specialize (H ltac:(lia)). cbv zeta in H. cbn [e_fitc e_qr e_svd e_tolx E1one] in H. rewrite E1_moves in H. apply H; auto.
Qed.
Example final_basis_case : good 2 1 v2 /\ exists s B, alt_run E1 2 1 Ninf NoBound zX f1 v2 = Some (s, B) /\ alt_us 2 1 (l_x s) = gU /\ B = gB.
Proof.
  split; [exact v2_good|]. pose proof E1_alt as H. unfold fit_alternating in H. destruct (alt_run E1 2 1 Ninf NoBound zX f1 v2) as [[s B]|] eqn:R; [|discriminate]. assert (U : alt_us 2 1 (l_x s) = gU) by congruence. exists s, B. split; auto. split; auto.
  rewrite (alt_final_basis E1 2 1 Ninf NoBound zX f1 v2 s B v2_good R). reflexivity.
Qed.
(** the first search of C139's case with the 2-norm takes the whole step *)
Example line_search_case : vp_ls E2 2 1 zX f1 [- kap; 0] [PI / 2; 0] [0; 1] = Some ([1; 0], 1, [0; 0; 0; 0]).
Proof.
  pose proof kap_pos as K. pose proof PI_RGT_0 as PP. assert (DG : dot [- kap; 0] [PI / 2; 0] = -1) by (rewrite !dot_cons, !dot_nil_l; unfold kap; field; lra).
  unfold vp_ls, linesearch_armijo. cbn [e_fitc e_qr e_svd E2]. rewrite DG. cbv zeta. assert (R2 : Rltb 0 (-1) = false) by (apply Rltb_false; lra). rewrite R2, E2_res0. cbn [armijo_loop]. change (unflat 2 1 [0; 1]) with v2. change (unflat 2 1 [PI / 2; 0]) with [[PI / 2; 0]].
  unfold pr_traj. pose proof ex_geo as G. destruct (ex_svd [[PI / 2; 0]]) as [[ys s] zs]. rewrite G, (ex_orth gU gU_good). change (flat 2 gU) with [1; 0]. rewrite E2_res1, !norm2_4.
  assert (R3 : Rltb (sqrt (0 * 0 + 0 * 0 + 0 * 0 + 0 * 0)) (sqrt (1 * 1 + -1 * -1 + 0 * 0 + 0 * 0) + 1 * / 10000 * -1) = true).
  { apply Rltb_true. replace (0 * 0 + 0 * 0 + 0 * 0 + 0 * 0) with 0 by ring. rewrite sqrt_0. replace (1 * 1 + -1 * -1 + 0 * 0 + 0 * 0) with 2 by ring. assert (1 <= sqrt 2) by (rewrite <- sqrt_1 at 1; apply sqrt_le_1_alt; lra). lra. }
  rewrite R3. reflexivity.
Qed.

(** PolynomialRidgeApproximation.fit as a whole: what the returned subspace and polynomial satisfy. *)
Require Import Reals Lra Lia List Bool Arith ZArith.
From Verif Require Import RVec Num Sums DomModel DomMoreModel SweepProofs HullProofs HullIneqProofs Deriv ArnoldiMoreProofs BasisModel IndexProofs PolyProofs MatLib SpecProofs GrassLib LipModel LipFitProofs PartialProofs SubModel ActiveProofs RidgeModel RidgeProofs TrajProofs PolySpan VarproLib VarproProofs GnStep RidgeFitProofs RidgeAffine RidgeFinish OptModel OptProofs SeqProofs SolveFit RFitModel.
Import ListNotations.
Local Open Scope R_scope.

(* ---------- specification ---------- *)
(** n orthonormal columns of length m *)
Definition good (m n : nat) (us : list vec) : Prop := length us = n /\ Forall (fun u => length u = m) us /\ orthonormal us.
(** error of a function g on the data, and the side it must stay on *)
Definition misfit (p : fnorm) (X : mat) (f : vec) (g : vec -> R) : R := fit_obj p (vsub (map g X) f).
Definition on_side (bd : fbound) (X : mat) (f : vec) (g : vec -> R) : Prop := fit_con bd (vsub (map g X) f).
(** contract of the Jacobian at U and of its SVD: it does not see a change of U inside its own span *)
Definition jac_ok (m n M : nat) (us : list vec) (A : mat) (svd : list vec * vec * list vec) : Prop :=
  length A = M /\ Forall (fun a => length a = (m * n)%nat) A /\ (forall ds, within m us ds -> mv A (flat m ds) = vzero M) /\
  svd_mat M (m * n) A (fst (fst svd)) (snd (fst svd)) (snd svd).
(** contracts of the external calls *)
Definition env_ok (E : fit_env) (m n d : nat) (p : fnorm) (bd : fbound) (X : mat) (f : vec) : Prop :=
  (forall us, good m n us -> basis_ok (fst (e_fitc E us)) n /\ tb_deg (fst (e_fitc E us)) = d /\
     coef_returns p bd (length (indices (fst (e_fitc E us)))) (vp_V (fst (e_fitc E us)) us X) f (snd (e_fitc E us))) /\
  (forall us, length us = n -> Forall (fun u => length u = m) us -> qr_post m us (fst (e_qr E us)) (snd (e_qr E us))) /\
  (forall ds, length ds = n -> Forall (fun u => length u = m) ds -> svd_good (e_svd E) m ds) /\
  (forall G, length G = length X -> Forall (fun g => length g = n) G -> onb n (e_svd1 E G)) /\
  (is_two p bd = true -> forall us, good m n us -> jac_ok m n (length X) us (e_jac E (flat m us)) (e_svdJ E (e_jac E (flat m us)))).
Definition start (E : fit_env) (n : nat) (U0 : option (list vec)) : list vec := match U0 with Some u => u | None => firstn n (e_init E) end.

(* ---------- small facts ---------- *)
Lemma unflat_flat_r : forall m us, Forall (fun u => length u = m) us -> unflat m (length us) (flat m us) = us.
Proof.
  intros m us F. destruct (unflat_len m (length us) (flat m us)) as [L1 L2]. apply (nth_ext _ _ [] []); auto. intros l Hl. rewrite L1 in Hl.
  assert (A : length (nth l (unflat m (length us) (flat m us)) []) = m) by (rewrite Forall_forall in L2; apply L2, nth_In; lia). assert (B : length (nth l us []) = m) by (rewrite Forall_forall in F; apply F, nth_In; lia).
  apply vec_ext; [lia|]. intros k Hk. rewrite A in Hk. change (ent (unflat m (length us) (flat m us)) l k = vget (nth l us []) k). rewrite unflat_ent by auto. rewrite flat_get by auto. auto.
Qed.
Lemma good_flat : forall m n us, good m n us -> unflat m n (flat m us) = us.
Proof. intros m n us [<- [F _]]. apply unflat_flat_r. auto. Qed.
Lemma good_flat_len : forall m n us, good m n us -> length (flat m us) = (m * n)%nat.
Proof. intros m n us [<- _]. apply flat_len. Qed.
Lemma alt_us_pack : forall m n us c, good m n us -> alt_us m n (alt_pack m us c) = us.
Proof. intros m n us c G. unfold alt_us, alt_pack. rewrite <- (good_flat_len m n us G), firstn_app_len. apply good_flat; auto. Qed.
Lemma alt_c_pack : forall m n us c, good m n us -> alt_c m n (alt_pack m us c) = c.
Proof. intros m n us c G. unfold alt_c, alt_pack. rewrite <- (good_flat_len m n us G), skipn_app, skipn_all, Nat.sub_diag. reflexivity. Qed.
Lemma linf_cmax : forall r, linf r = cmax (length r) r.
Proof.
  intro r. destruct (objfun_spec r) as [_ [_ [[I1 I2] _]]]. cbn in I1, I2. destruct r as [|a r]; [reflexivity|]. apply Rle_antisym.
  - destruct I2 as [i [Hi ->]]; [discriminate|]. apply cmax_ge; auto.
  - apply cmax_le; [|exact I1]. eapply Rle_trans; [apply Rabs_pos|apply (I1 0%nat)]. cbn. lia.
Qed.
Lemma alt_norm_obj : forall p r, objfun (alt_norm p) r = fit_obj p r.
Proof. intros [] r; cbn; auto. rewrite vmax_abs. apply linf_cmax. Qed.
Lemma pr_residual_map : forall B us X f c, pr_residual B us X f c = vsub (map (ridge_eval B c us) X) f.
Proof. intros. unfold pr_residual, vp_V, mv. rewrite map_map. reflexivity. Qed.
Lemma orth_indep : forall m us, Forall (fun u => length u = m) us -> orthonormal us -> independent m us.
Proof.
  intros m us F O c Lc E. rewrite <- (mv_lincomb_onb m us c F O Lc), E. apply vec_ext; [rewrite mv_length; unfold vzero; rewrite repeat_length; auto|]. intros i Hi. rewrite mv_length in Hi. rewrite mv_get by auto. rewrite dot_zero_r, vzero_get. auto.
Qed.
Lemma good_orth : forall E m n d p bd X f U, env_ok E m n d p bd X f -> length U = n -> Forall (fun u => length u = m) U -> independent m U -> good m n (orth (e_qr E) U) /\ same_span m (orth (e_qr E) U) U.
Proof. intros E m n d p bd X f U [_ [Q _]] L F I. destruct (orth_full_rank (e_qr E) m U (Q U L F) I) as [A [B [C [D _]]]]. split; auto. split; [lia|auto]. Qed.

(** the coefficients of the fit on U beat every polynomial of lower or equal degree on a subspace of span(U) *)
Lemma coef_beats : forall p bd B B' m n n' us us' X f c c', basis_ok B n -> basis_ok B' n' -> (tb_deg B' <= tb_deg B)%nat -> length us = n -> length us' = n' -> Forall (fun u => length u = m) us -> (forall u, In u us' -> spans m us u) ->
  Forall (fun x => length x = m) X -> length f = length X -> coef_returns p bd (length (indices B)) (vp_V B us X) f c -> length c' = length (indices B') -> on_side bd X f (ridge_eval B' c' us') ->
  misfit p X f (ridge_eval B c us) <= misfit p X f (ridge_eval B' c' us').
Proof.
  intros p bd B B' m n n' us us' X f c c' OB OB' DG Lu Lu' FU SP FX Lf CR Lc' CON. unfold misfit, on_side in *. rewrite <- !pr_residual_map in *.
  destruct (V_change_mv B B' m n n' us us' X OB OB' DG Lu Lu' FU SP FX c' Lc') as [e [Le Ee]]. unfold pr_residual in *. rewrite Ee in *.
  assert (LV : length f = length (vp_V B us X)) by (rewrite vp_V_len; auto). destruct (coef_linear p bd _ _ f c LV CR) as [Lc [_ H]]. apply (H e); [lia|]. exact CON.
Qed.
Lemma coef_side : forall p bd B us X f c, length f = length X -> coef_returns p bd (length (indices B)) (vp_V B us X) f c -> on_side bd X f (ridge_eval B c us) /\ length c = length (indices B).
Proof. intros p bd B us X f c Lf CR. assert (LV : length f = length (vp_V B us X)) by (rewrite vp_V_len; auto). destruct (coef_linear p bd _ _ f c LV CR) as [Lc [H _]]. split; auto. unfold on_side. rewrite <- pr_residual_map. exact H. Qed.

(* ---------- the stored basis: sequential_lp with state equals sequential_lp ---------- *)
Section Refine.
  Context {St : Type}.
  Variable f : St -> vec -> vec.
  Variable F : vec -> vec.
  Variable nm : lp_norm.
  Variable traj : vec -> vec -> R -> vec * St.
  Variable jacst : vec -> St.
  Variable solve : vec -> vec -> option R -> lp.
  Variables lb ub : option vec.
  Variables tdx tobj : R.
  Variable verbose : bool.
  Variable P : vec -> Prop.
  Hypothesis HP : forall x p, P x -> P (fst (traj x p 1)) /\ f (snd (traj x p 1)) (fst (traj x p 1)) = F (fst (traj x p 1)).
  Let tr := fun x p t => fst (traj x p t).
  Lemma sls_in_refines : forall k first b s, P (l_x s) ->
    let '(s', last, b') := sls_in f nm traj solve lb ub tdx tobj k first b s in sl_in F nm tr solve lb ub tdx tobj k first s = (s', last) /\ P (l_x s').
  Proof.
    induction k as [|k IH]; intros first b s H; cbn [sls_in sl_in]; [auto|]. cbv zeta. destruct (solve (l_x s) (l_f s) _) as [|p|].
    - destruct first; apply IH; exact H.
    - destruct (HP (l_x s) p H) as [P1 P2]. destruct (traj (l_x s) p 1) as [xn bn] eqn:T. cbn [fst snd] in *. assert (ET : tr (l_x s) p 1 = xn) by (unfold tr; rewrite T; auto). rewrite ET.
      destruct (all_same tdx (l_x s) xn); [auto|]. rewrite P2. destruct (_ && _)%bool; [auto|]. apply IH. exact H.
    - apply IH. exact H.
  Qed.
  Lemma sls_loop_refines : forall btmax left b s, P (l_x s) ->
    option_map fst (sls_loop f nm traj jacst solve lb ub tdx tobj verbose btmax left b s) = sl_loop F nm tr solve lb ub tdx tobj verbose btmax left s.
  Proof.
    intro btmax. induction left as [|l IH]; intros b s H; cbn [sls_loop sl_loop]; [reflexivity|].
    set (s0 := mkSl (l_x s) (l_f s) (l_obj s) (l_Delta s) false (l_px s) (l_cv s) (l_hist s)). assert (H0 : P (l_x s0)) by exact H.
    pose proof (sls_in_refines btmax true b s0 H0) as R. destruct (sls_in _ _ _ _ _ _ _ _ btmax true b s0) as [[s1 last] b1]. destruct R as [R1 R2]. rewrite R1.
    destruct (verbose && _)%bool; [reflexivity|]. destruct (_ || _)%bool; [reflexivity|]. apply IH. exact R2.
  Qed.
End Refine.

(** the residual with the basis rebuilt from U at every call *)
Definition alt_fresh (E : fit_env) (m n : nat) (X : mat) (f x : vec) : vec := alt_res m n X f (fst (e_fitc E (alt_us m n x))) x.
Definition alt_inv (E : fit_env) (m n : nat) (x : vec) : Prop := exists us, good m n us /\ x = alt_pack m us (snd (e_fitc E us)).
Lemma alt_fresh_pack : forall E m n X f us c, good m n us -> alt_fresh E m n X f (alt_pack m us c) = pr_residual (fst (e_fitc E us)) us X f c.
Proof. intros. unfold alt_fresh, alt_res. rewrite alt_us_pack, alt_c_pack by auto. auto. Qed.
Lemma alt_step : forall E m n d p bd X f, env_ok E m n d p bd X f -> forall x q, alt_inv E m n x ->
  alt_inv E m n (fst (alt_traj (e_fitc E) (e_qr E) (e_svd E) m n x q 1)) /\
  alt_res m n X f (snd (alt_traj (e_fitc E) (e_qr E) (e_svd E) m n x q 1)) (fst (alt_traj (e_fitc E) (e_qr E) (e_svd E) m n x q 1)) = alt_fresh E m n X f (fst (alt_traj (e_fitc E) (e_qr E) (e_svd E) m n x q 1)).
Proof.
  intros E m n d p bd X f [_ [HQ [HS _]]] x q [us [G ->]]. unfold alt_traj. rewrite alt_us_pack by auto. set (ds := alt_us m n q). cbn [fst snd]. pose proof G as [Lu [FU OU]].
  assert (LD : length ds = n /\ Forall (fun u => length u = m) ds) by apply unflat_len. destruct LD as [LD FD].
  assert (OK : orth (e_qr E) us = us) by (apply (orth_keeps (e_qr E) m); auto).
  destruct (alt_traj_orthonormal (e_qr E) (e_svd E) m us ds 1) as [A1 [A2 [A3 _]]]; auto; [apply orth_indep; auto|lia| |].
  - rewrite OK. apply HS; [unfold horiz; rewrite map_length; auto|]. unfold horiz. apply Forall_forall. intros v I. apply in_map_iff in I. destruct I as [e [<- Ie]]. rewrite Forall_forall in FD. rewrite vsub_length; rewrite ?lincomb_length; auto.
  - set (us' := pr_alt_traj (e_qr E) (e_svd E) m us ds 1) in *. assert (G' : good m n us') by (split; [lia|auto]). split; [exists us'; auto|]. unfold alt_fresh, alt_res. rewrite alt_us_pack by auto. auto.
Qed.
(** with the contracts the stored basis is always the one of the point at which the residual is evaluated *)
Theorem alt_stored_basis : forall E m n d p bd X f us0, env_ok E m n d p bd X f -> good m n us0 ->
  option_map fst (alt_run E m n p bd X f us0) = sequential_lp (alt_fresh E m n X f) (alt_norm p) (fun x q t => fst (alt_traj (e_fitc E) (e_qr E) (e_svd E) m n x q t))
    (e_lp E) (alt_lb bd (length X)) (alt_ub bd (length X)) (e_tolx E) (e_tol_obj E) (e_verbose E) (e_btmax E) (e_maxiter E) (alt_pack m us0 (snd (e_fitc E us0))).
Proof.
  intros E m n d p bd X f us0 OK G. unfold alt_run, sequential_lp_st, sequential_lp. set (x0 := alt_pack m us0 (snd (e_fitc E us0))).
  assert (E0 : alt_res m n X f (fst (e_fitc E us0)) x0 = alt_fresh E m n X f x0) by (unfold alt_fresh, x0; rewrite alt_us_pack by auto; auto). rewrite E0.
  apply (sls_loop_refines _ _ _ _ _ _ _ _ _ _ _ (alt_inv E m n)); [apply (alt_step E m n d p bd X f OK)|]. exists us0. auto.
Qed.
Lemma fit_alternating_good : forall E m n d p bd X f us0 us, env_ok E m n d p bd X f -> good m n us0 -> fit_alternating E m n p bd X f us0 = Some us ->
  good m n us /\ misfit p X f (ridge_eval (fst (e_fitc E us)) (snd (e_fitc E us)) us) <= misfit p X f (ridge_eval (fst (e_fitc E us0)) (snd (e_fitc E us0)) us0).
Proof.
  intros E m n d p bd X f us0 us OK G0 H. unfold fit_alternating in H. pose proof (alt_stored_basis E m n d p bd X f us0 OK G0) as R. destruct (alt_run E m n p bd X f us0) as [[s b]|]; [|discriminate]. injection H as <-. cbn [option_map fst] in R. symmetry in R.
  apply (seqlp_correct _ _ _ _ _ _ _ _ _ _ _ _ _ (alt_inv E m n)) in R; [|exists us0; auto|intros x fx D q I _; apply (alt_step E m n d p bd X f OK); auto].
  destruct R as [O [[us [G EX]] _]]. rewrite EX in *. rewrite alt_us_pack by auto. split; auto. rewrite !alt_fresh_pack, !alt_norm_obj, !pr_residual_map in O by auto. exact O.
Qed.

(* ---------- Gauss-Newton ---------- *)
Lemma cols_mv : forall N A v, Forall (fun a => length a = N) A -> length v = N -> lincomb (length A) (cols N A) v = mv A v.
Proof.
  intros N A v F L. assert (FC : Forall (fun u => length u = length A) (cols N A)) by (apply Forall_forall; intros u I; unfold cols in I; apply in_map_iff in I; destruct I as [j [<- _]]; apply col_len).
  apply vec_ext; [rewrite lincomb_length, mv_length; auto|]. intros i Hi. rewrite lincomb_length in Hi by auto. rewrite MatLib.lincomb_get by (auto; rewrite cols_len; auto). rewrite cols_len, mv_get by auto.
  rewrite (dot_rs N) by (auto; rewrite Forall_forall in F; apply F, nth_In; auto). apply rsum_ext. intros k Hk. unfold cols. rewrite nth_map_seq by auto. rewrite col_get by auto. ring.
Qed.
Lemma tangent_flat : forall m n us q, good m n us -> length q = (m * n)%nat -> (forall ds, within m us ds -> dot (flat m ds) q = 0) -> tangent us (unflat m n q).
Proof.
  intros m n us q [<- [FU OU]] Lq H u e Iu Ie. destruct (unflat_len m (length us) q) as [L1 L2]. apply (In_nth _ _ []) in Iu. destruct Iu as [a [Ha <-]]. apply (In_nth _ _ []) in Ie. destruct Ie as [l [Hl <-]]. rewrite L1 in Hl. rewrite <- dirpl_dot by auto. apply H. apply dirpl_within; auto.
Qed.
Lemma jac_grad_tangent : forall m n M us A sv y, good m n us -> jac_ok m n M us A sv -> length y = M -> length (tmv (m * n) A y) = (m * n)%nat /\ tangent us (unflat m n (tmv (m * n) A y)).
Proof.
  intros m n M us A sv y G [LA [FA [K _]]] Ly. unfold tmv. assert (LT : length (lincomb (m * n) A y) = (m * n)%nat) by (apply lincomb_length; auto). split; auto. apply tangent_flat; auto. intros ds W. rewrite (dot_lincomb_r (m * n)) by (auto; lia). apply rsum_zero. intros k Hk.
  specialize (K ds W). assert (Z : vget (mv A (flat m ds)) k = 0) by (rewrite K; apply vzero_get). rewrite mv_get in Z by auto. rewrite dot_comm, Z. ring.
Qed.
Lemma jac_step_tangent : forall svdJ m n M us A r dx, good m n us -> jac_ok m n M us A (svdJ A) -> vp_gnsolver svdJ m n A r = Some dx -> length dx = (m * n)%nat /\ tangent us (unflat m n dx).
Proof.
  intros svdJ m n M us A r dx G [LA [FA [K SV]]] H. unfold vp_gnsolver in H. destruct (svdJ A) as [[ys s] zs]. cbn [fst snd] in SV. destruct (Nat.eqb (gn_keep n s) 0); [discriminate|].
  destruct (forallb _ _) eqn:FB; [|discriminate]. injection H as <-. rewrite forallb_forall in FB. unfold svd_mat in SV. pose proof SV as [_ [_ [_ [Ls [OZ _]]]]]. rewrite cols_len in Ls, OZ.
  destruct (gn_dot (m * n) n ys s zs r (vzero (m * n)) OZ Ls (repeat_length _ _)) as [LG _]. split; auto. apply tangent_flat; auto. intros ds W. pose proof G as [Lu _]. destruct W as [Lds W].
  assert (LF : length (flat m ds) = (m * n)%nat) by (rewrite flat_len; congruence). replace (m * n)%nat with (length (cols (m * n) A)) by apply cols_len. apply (gn_orth_kernel M); auto.
  - apply Forall_forall. intros u I. unfold cols in I. apply in_map_iff in I. destruct I as [j [<- _]]. rewrite col_len. auto.
  - intros i Hi. specialize (FB i). rewrite in_seq in FB. specialize (FB ltac:(lia)). apply negb_true_iff in FB. intro Z. rewrite Z in FB. unfold Reqb in FB. destruct (Req_EM_T 0 0); [discriminate|]. congruence.
  - rewrite cols_len. auto.
  - rewrite <- LA at 1. rewrite cols_mv by auto. apply K. split; auto.
Qed.
Lemma vp_flat_len : forall E m n X f x, length f = length X -> length (vp_flat (e_fitc E) m n X f x) = length X.
Proof. intros. unfold vp_flat, vp_residual. cbv zeta. rewrite vsub_length; rewrite ?mv_length, ?vp_V_len; auto. Qed.
Definition gn_inv (E : fit_env) (m n : nat) (X : mat) (f : vec) (s : gnst) : Prop :=
  exists us, good m n us /\ g_x s = flat m us /\ length (g_grad s) = (m * n)%nat /\ tangent us (unflat m n (g_grad s)).
Lemma vp_ls_good : forall E m n d p bd X f us g q xn a fn, env_ok E m n d p bd X f -> good m n us -> tangent us (unflat m n q) -> vp_ls E m n X f g q (flat m us) = Some (xn, a, fn) ->
  (exists us', good m n us' /\ xn = flat m us') /\ fn = vp_flat (e_fitc E) m n X f xn.
Proof.
  intros E m n d p bd X f us g q xn a fn [_ [HQ [HS _]]] G T H. unfold vp_ls in H. apply armijo_correct in H. destruct H as [_ [v [V H]]]. injection V as <-. destruct H as [[-> [_ [-> _]]]|[k [_ [_ [K1 [K2 _]]]]]]; [split; [exists us; auto|auto]|].
  injection K2 as <-. injection K1 as <-. rewrite (good_flat m n us G). pose proof G as [Lu [FU OU]]. destruct (unflat_len m n q) as [L1 L2]. set (ds := unflat m n q) in *.
  assert (SG : svd_good (e_svd E) m ds) by auto. assert (TP : traj_pre m us ds) by (split; [auto|split; [auto|split; [lia|auto]]]).
  assert (LG : length (pv_traj (e_svd E) m us ds a) = n /\ Forall (fun u => length u = m) (pv_traj (e_svd E) m us ds a)).
  { unfold svd_good in SG. unfold pv_traj. destruct (e_svd E ds) as [[ys s] zs]. split; [rewrite geo_cols_len; auto|]. apply (geo_rows m us ds); auto; lia. }
  destruct (traj_orthonormal (e_qr E) (e_svd E) m us ds a TP SG ltac:(apply HQ; apply LG)) as [-> [A1 [A2 A3]]]. split; auto. eexists. split; [|reflexivity]. split; [lia|auto].
Qed.
Lemma tangent_neg : forall m n us q, tangent us (unflat m n q) -> tangent us (unflat m n (vscale (-1) q)).
Proof.
  intros m n us q H u e Iu Ie. assert (EQ : unflat m n (vscale (-1) q) = map (vscale (-1)) (unflat m n q)). { unfold unflat. rewrite map_map. apply map_ext. intro l. unfold vscale at 2. rewrite map_map. apply map_ext. intro k. apply vscale_get. }
  rewrite EQ in Ie. apply in_map_iff in Ie. destruct Ie as [w [<- Iw]]. rewrite dot_vscale_r, (H u w) by auto. ring.
Qed.
Lemma gn_body_keeps : forall E m n d p bd X f tol s, env_ok E m n d p bd X f -> is_two p bd = true -> length f = length X -> gn_inv E m n X f s ->
  match gn_body (m * n) (e_jac E) (vp_gnsolver (e_svdJ E) m n) (vp_ls E m n X f) (e_verbose E) tol (e_tolx E) s with Exc => True | Next s' | Brk s' => gn_inv E m n X f s' end.
Proof.
  intros E m n d p bd X f tol s OK TW Lf [us [G [EX [Lg TG]]]]. pose proof OK as [_ [_ [_ [_ HJ]]]]. specialize (HJ TW). unfold gn_body. rewrite EX. destruct (vp_gnsolver _ m n _ (g_f s)) as [dx0|] eqn:SV; [|exact I].
  destruct (jac_step_tangent _ m n _ us _ _ dx0 G (HJ us G) SV) as [Ld Td]. set (dx := if Rleb 0 (dot (g_grad s) dx0) then vscale (-1) (g_grad s) else dx0). assert (TD : tangent us (unflat m n dx)) by (unfold dx; destruct (Rleb 0 (dot (g_grad s) dx0)); [apply tangent_neg; auto|auto]).
  destruct (vp_ls E m n X f (g_grad s) dx (flat m us)) as [[[xn a] fn]|] eqn:LS; [|exact I]. destruct (vp_ls_good E m n d p bd X f us _ dx xn a fn OK G TD LS) as [[us' [G' ->]] EF]. cbv zeta.
  assert (LF : length fn = length X) by (rewrite EF; apply vp_flat_len; auto).
  assert (INV : forall b ng ndx fe, gn_inv E m n X f (mkGn (if b : bool then flat m us else flat m us') fe (tmv (m * n) (e_jac E (if b then flat m us else flat m us')) fn) ng ndx fn)).
  { intros b ng ndx fe. destruct b; [exists us|exists us']; (split; [auto|split; [reflexivity|]]); cbn [g_grad]; [apply (jac_grad_tangent m n (length X) us _ _ fn G (HJ us G) LF)|apply (jac_grad_tangent m n (length X) us' _ _ fn G' (HJ us' G') LF)]. }
  set (inc := Rleb (norm2 (g_f s)) (norm2 fn)). destruct (Rltb _ tol); [apply INV|]. destruct (Rltb _ (e_tolx E)); [apply INV|]. destruct inc; [apply (INV true)|apply (INV false)].
Qed.
Lemma gn_loop_keeps : forall E m n d p bd X f tol left it s it' s', env_ok E m n d p bd X f -> is_two p bd = true -> length f = length X -> gn_inv E m n X f s ->
  gn_loop (m * n) (e_jac E) (vp_gnsolver (e_svdJ E) m n) (vp_ls E m n X f) (e_verbose E) tol (e_tolx E) left it s = Some (it', s') -> gn_inv E m n X f s'.
Proof.
  intros E m n d p bd X f tol left it s it' s' OK TW Lf I H. revert it s I H. induction left as [|l IH]; intros it s I H; cbn [gn_loop] in H; [discriminate|].
  pose proof (gn_body_keeps E m n d p bd X f tol s OK TW Lf I) as K. destruct (gn_body _ _ _ _ _ _ _ s) as [|s1|s1]; [discriminate| |injection H as _ <-; auto]. destruct l as [|l]; [injection H as _ <-; auto|]. apply IH in H; auto.
Qed.
Lemma vp_flat_misfit : forall E m n X f us, good m n us -> length f = length X -> norm2 (vp_flat (e_fitc E) m n X f (flat m us)) = misfit BasisModel.N2 X f (ridge_eval (fst (e_fitc E us)) (snd (e_fitc E us)) us).
Proof.
  intros E m n X f us G Lf. unfold vp_flat. rewrite (good_flat m n us G). cbv zeta. unfold misfit. rewrite <- pr_residual_map. unfold fit_obj, pr_residual, vp_residual. apply LipProofs.norm2_vsub_sym. rewrite mv_length, vp_V_len. auto.
Qed.
Lemma fit_varpro_good : forall E m n d p bd X f us0 us, env_ok E m n d p bd X f -> is_two p bd = true -> length f = length X -> good m n us0 -> fit_varpro E m n X f us0 = Some us ->
  good m n us /\ misfit p X f (ridge_eval (fst (e_fitc E us)) (snd (e_fitc E us)) us) <= misfit p X f (ridge_eval (fst (e_fitc E us0)) (snd (e_fitc E us0)) us0).
Proof.
  intros E m n d p bd X f us0 us OK TW Lf G0 H. unfold fit_varpro in H. destruct (gauss_newton _ _ _ _ _ _ _ _ _ _) as [[x i]|] eqn:GN; [|discriminate]. injection H as <-.
  assert (MON : norm2 (vp_flat (e_fitc E) m n X f x) <= norm2 (vp_flat (e_fitc E) m n X f (flat m us0))).
  { eapply gn_monotone_all; [|exact GN]. intros g q y xn a fn L. unfold vp_ls in L. apply armijo_correct in L. destruct L as [_ [v [V L]]]. injection V as <-. destruct L as [[-> [_ [-> _]]]|[k [_ [_ [_ [K2 _]]]]]]; [auto|]. injection K2 as <-. auto. }
  assert (INV : exists us, good m n us /\ x = flat m us).
  { unfold gauss_newton in GN. destruct (e_maxiter E) as [|mi]; [injection GN as <- _; exists us0; auto|]. cbv zeta in GN. destruct (gn_loop _ _ _ _ _ _ _ _ _ _) as [[it s]|] eqn:L; [|discriminate]. injection GN as <- _.
    apply (gn_loop_keeps E m n d p bd X f) in L; auto; [destruct L as [us [A [B _]]]; eauto|]. exists us0. split; auto. split; [reflexivity|]. unfold gn_start. cbv zeta. cbn [g_grad]. pose proof OK as [_ [_ [_ [_ HJ]]]]. apply (jac_grad_tangent m n (length X) us0 _ _ _ G0 (HJ TW us0 G0)). apply vp_flat_len; auto. }
  destruct INV as [us [G ->]]. rewrite (good_flat m n us G). split; auto. rewrite !(vp_flat_misfit E m n) in MON by auto. destruct p, bd; try discriminate TW. exact MON.
Qed.

(* ---------- _finish ---------- *)
Lemma fit_finish_good : forall E m n d p bd X f rot us, env_ok E m n d p bd X f -> good m n us ->
  (rot = false \/ forall u, In u (fst (finish (e_fitc E) (e_svd1 E) m rot X us)) -> u <> vzero m) ->
  good m n (fst (finish (e_fitc E) (e_svd1 E) m rot X us)) /\ same_span m us (fst (finish (e_fitc E) (e_svd1 E) m rot X us)).
Proof.
  intros E m n d p bd X f rot us OK G NZ. pose proof OK as [HF [_ [_ [H1 _]]]]. pose proof G as [Lu [FU OU]]. destruct rot.
  2: { unfold finish. cbv zeta. rewrite andb_false_r. cbn [fst]. split; auto. intro; reflexivity. }
  destruct NZ as [NZ|NZ]; [discriminate|]. destruct (HF us G) as [[_ [_ [Dn _]]] _].
  set (Y := map (mv us) X). set (us1 := if Nat.ltb 1 (length us) && true then map (lincomb m us) (e_svd1 E (map (poly_grad (fst (e_fitc E us)) (snd (e_fitc E us))) Y)) else us).
  assert (OB : onb (length us) (e_svd1 E (map (poly_grad (fst (e_fitc E us)) (snd (e_fitc E us))) Y))).
  { rewrite Lu. apply H1; [unfold Y; rewrite !map_length; auto|]. apply Forall_forall. intros g I. apply in_map_iff in I. destruct I as [y [<- _]]. rewrite poly_grad_len. auto. }
  assert (L1 : length us1 = n /\ Forall (fun u => length u = m) us1 /\ orthonormal us1 /\ same_span m us us1).
  { unfold us1. destruct (Nat.ltb 1 (length us)); cbn [andb]; [|repeat split; auto]. split; [rewrite map_length; destruct OB as [-> _]; auto|]. split; [apply rot_dims; auto|]. split; [apply rot_orth; auto|apply rot_span; auto]. }
  destruct L1 as [L1 [F1 [O1 S1]]]. set (s := map (fun k => sgn (mean (col (map (poly_grad (fst (e_fitc E us1)) (snd (e_fitc E us1))) Y) k))) (seq 0 (length us))).
  assert (Ls : length s = length us1) by (unfold s; rewrite map_length, seq_length; congruence).
  assert (EF : fst (finish (e_fitc E) (e_svd1 E) m true X us) = scale_cols s us1) by reflexivity. rewrite EF in *.
  assert (PM : pm1 s). { apply Forall_forall. intros a I. apply (In_nth _ _ 0) in I. destruct I as [k [Hk <-]]. change (nth k s 0) with (vget s k). assert (Hn : (k < length us)%nat) by lia. unfold s. rewrite vget_map_seq by auto. apply sgn_pm. intro Z.
    apply (NZ (nth k (scale_cols s us1) [])); [apply nth_In; rewrite scale_cols_len; lia|]. rewrite scale_cols_nth by lia. assert (SZ : vget s k = 0) by (unfold s; rewrite vget_map_seq by auto; rewrite Z; apply sgn_0). rewrite SZ.
    assert (LK : length (nth k us1 []) = m) by (rewrite Forall_forall in F1; apply F1, nth_In; lia). apply vec_ext; [rewrite vscale_length; unfold vzero; rewrite repeat_length; auto|]. intros i Hi. rewrite vscale_get, vzero_get. ring. }
  destruct (scale_cols_orth m s us1 PM ltac:(lia) F1 O1) as [F2 O2]. split; [split; [rewrite scale_cols_len; lia|auto]|]. intro x. rewrite (S1 x). apply flip_span; auto; lia.
Qed.

(* ---------- fit ---------- *)
Lemma pr_fit_inv : forall E m n d p bd rot X f U0 us B c, pr_fit E m n d p bd rot X f U0 = Fitted us B c -> ~ (n = 1%nat /\ d = 1%nat) ->
  length X = length f /\ pr_enough m n d (length X) = true /\ length (start E n U0) = n /\ Forall (fun u => length u = m) (start E n U0) /\
  exists us', (if is_two p bd then fit_varpro E m n X f (orth (e_qr E) (start E n U0)) else fit_alternating E m n p bd X f (orth (e_qr E) (start E n U0))) = Some us' /\
    us = fst (finish (e_fitc E) (e_svd1 E) m rot X us') /\ (B, c) = e_fitc E us.
Proof.
  intros E m n d p bd rot X f U0 us B c H ND. unfold pr_fit in H. fold (start E n U0) in H. destruct (Nat.eqb_spec (length X) (length f)) as [L|]; [|discriminate]. cbn [negb] in H. destruct (pr_enough m n d (length X)); [|discriminate]. cbn [negb] in H.
  assert (AF : (Nat.eqb n 1 && Nat.eqb d 1)%bool = false) by (apply andb_false_iff; rewrite !Nat.eqb_neq; lia). rewrite AF in H. destruct (Nat.eqb_spec (length (start E n U0)) n) as [L0|]; [|discriminate]. cbn [andb] in H.
  destruct (forallb _ (start E n U0)) eqn:FB; [|discriminate]. cbn [negb] in H. split; auto. split; auto. split; auto. split; [apply Forall_forall; intros u I; rewrite forallb_forall in FB; apply Nat.eqb_eq; auto|].
  destruct (if is_two p bd then _ else _) as [us'|]; [|discriminate]. exists us'. split; auto. cbv zeta in H. injection H as <- <- <-. split; auto. unfold finish. cbn [fst snd]. symmetry. apply surjective_pairing.
Qed.
(** the result of fit: an orthonormal U, the best coefficients for it, and an error not above that of any ridge function of
    the same or a lower degree on the starting subspace *)
Theorem fit_correct : forall E m n d p bd rot X f U0 us B c, env_ok E m n d p bd X f -> Forall (fun x => length x = m) X -> pr_fit E m n d p bd rot X f U0 = Fitted us B c -> ~ (n = 1%nat /\ d = 1%nat) ->
  independent m (start E n U0) -> (rot = false \/ forall u, In u us -> u <> vzero m) ->
  good m n us /\ basis_ok B n /\ tb_deg B = d /\ length c = length (indices B) /\ on_side bd X f (ridge_eval B c us) /\
  forall B' n' us' c', basis_ok B' n' -> (tb_deg B' <= d)%nat -> length us' = n' -> (forall u, In u us' -> spans m us u) \/ (forall u, In u us' -> spans m (start E n U0) u) ->
    length c' = length (indices B') -> on_side bd X f (ridge_eval B' c' us') -> misfit p X f (ridge_eval B c us) <= misfit p X f (ridge_eval B' c' us').
Proof.
  intros E m n d p bd rot X f U0 us B c OK FX H ND IND NZ. destruct (pr_fit_inv _ _ _ _ _ _ _ _ _ _ _ _ _ H ND) as [Lf [_ [L0 [F0 [us1 [R [EU EB]]]]]]]. symmetry in Lf. set (U := start E n U0) in *.
  destruct (good_orth E m n d p bd X f U OK L0 F0 IND) as [G0 S0]. set (us0 := orth (e_qr E) U) in *.
  assert (K : good m n us1 /\ misfit p X f (ridge_eval (fst (e_fitc E us1)) (snd (e_fitc E us1)) us1) <= misfit p X f (ridge_eval (fst (e_fitc E us0)) (snd (e_fitc E us0)) us0)).
  { destruct (is_two p bd) eqn:TW; [apply (fit_varpro_good E m n d p bd); auto|apply (fit_alternating_good E m n d p bd); auto]. }
  destruct K as [G1 K]. assert (NZ' : rot = false \/ forall u, In u (fst (finish (e_fitc E) (e_svd1 E) m rot X us1)) -> u <> vzero m) by (rewrite <- EU; exact NZ).
  destruct (fit_finish_good E m n d p bd X f rot us1 OK G1 NZ') as [G S]. rewrite <- EU in G, S. pose proof OK as [HF _]. destruct (HF us G) as [BO [BD CR]]. destruct (HF us1 G1) as [BO1 [BD1 CR1]]. destruct (HF us0 G0) as [BO0 [BD0 CR0]]. rewrite <- EB in BO, BD, CR. cbn [fst snd] in BO, BD, CR.
  destruct (coef_side p bd B us X f c Lf CR) as [OS Lc]. split; auto. split; auto. split; auto. split; auto. split; auto. intros B' n' us' c' OB' DG Lu' SP Lc' OS'. pose proof G as [Lu [FU OU]]. pose proof G1 as [Lu1 [FU1 OU1]]. pose proof G0 as [Lu0 [FU0 OU0]]. destruct SP as [SP|SP].
  - apply (coef_beats p bd B B' m n n'); auto. lia.
  - eapply Rle_trans; [|eapply Rle_trans; [exact K|]].
    + apply (coef_beats p bd B _ m n n); auto; [lia|apply span_members; auto| |].
      * destruct (coef_side p bd _ us1 X f _ Lf CR1) as [_ Q]; exact Q.
      * destruct (coef_side p bd _ us1 X f _ Lf CR1) as [Q _]; exact Q.
    + apply (coef_beats p bd _ B' m n n'); auto; [lia|]. intros u I. apply S0. apply SP. auto.
Qed.

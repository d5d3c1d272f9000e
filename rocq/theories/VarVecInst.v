(** Several outputs with a fixed subspace, and the Gauss-Newton step: statements of C136 for the tensor and the Arnoldi bases. *)
Require Import Reals Lra Lia List Bool Arith.
From Verif Require Import RVec Num Sums DomModel DomMoreModel SweepProofs HullProofs Deriv BasisModel IndexProofs PolyProofs MatLib SpecProofs GrassLib LipModel LipFitProofs SubModel ActiveProofs RidgeModel RidgeProofs TrajProofs PolySpan VarproLib VarproProofs GnStep RidgeFitProofs ArnoldiProofs ArnoldiMoreProofs PolyfitModel PolyfitProofs LsqAlg ProjGradProofs VarArnModel VarArnProofs VarArnDeriv VarArnMain VarVecModel VarVecProofs VarVecMain VarVecStep.
Import ListNotations.
Local Open Scope R_scope.

(** what residual and Jacobian are computed from *)
Definition vv_pre (B : tbasis) (m : nat) (us : list vec) (X : mat) (fs cs ys : list vec) (s : vec) (zs : list vec) : Prop :=
  basis_ok B (length us) /\ Forall (fun u => length u = m) us /\ Forall (fun x => length x = m) X /\ Forall (fun f => length f = length X) fs /\ svd_mat (length X) (length (indices B)) (vp_V B us X) ys s zs /\ ls_all (length (indices B)) (vp_V B us X) fs cs.
Lemma vv_jker : forall B m us X fs cs ys s zs, vv_pre B m us X fs cs ys s zs -> jker (length fs * length X) m us (vv_jac B us m X ys s zs fs cs).
Proof.
  intros B m us X fs cs ys s zs (OB & FU & FX & FF & SV & LA). destruct (vv_jac_zero B m us X fs cs ys s zs (vzero (m * length us)) FF SV LA (repeat_length _ _)) as (LJ & FJ & _). split; [apply OB|]. split; auto. split; auto. split; auto. intros ds W. apply vec_kernel; auto.
Qed.
Lemma vv_len : forall V fs cs, length cs = length fs -> Forall (fun f => length f = length V) fs -> length (vv_residual V fs cs) = (length fs * length V)%nat.
Proof. intros V fs cs L F. unfold vv_residual. rewrite (concat_len (length V)) by (apply vv_blocks; auto). rewrite comb_len by auto. reflexivity. Qed.
Theorem vec_step : forall B m us X fs cs ys s zs yJ sJ zJ, vv_pre B m us X fs cs ys s zs -> orthonormal us ->
  let r := vv_residual (vp_V B us X) fs cs in let J := vv_jac B us m X ys s zs fs cs in
  gn_svd (length fs * length X) (length us) J yJ sJ zJ -> good_step (length fs * length X) m us J r (gn_solve (m * length us) (length us) yJ sJ zJ r).
Proof.
  intros B m us X fs cs ys s zs yJ sJ zJ P OU r J SV. apply step_good; auto; [apply vv_jker; auto|]. destruct P as (OB & FU & FX & FF & _ & L & _). unfold r. rewrite vv_len; rewrite ?vp_V_len; auto.
Qed.
Theorem arn_vec_step : forall p m us X fs yJ sJ zJ, fs <> [] -> (forall f, In f fs -> va_pre p m us X f) -> orthonormal us ->
  exists r J, va_vec_residual p us X fs = Some r /\ va_vec_jac p m us X fs = Some J /\
  (gn_svd (length fs * length X) (length us) J yJ sJ zJ -> good_step (length fs * length X) m us J r (gn_solve (m * length us) (length us) yJ sJ zJ r)).
Proof.
  intros p m us X fs yJ sJ zJ NE PR OU. destruct (va_jac_zero p m us X fs (vzero (m * length us)) PR (repeat_length _ _)) as (J & EJ & LJ & FJ & _).
  assert (E : va_vec_residual p us X fs = Some (concat (map (fun f => getv (va_residual p us X f)) fs))) by (unfold va_vec_residual; rewrite (some_map _ _ _ (fun f => getv (va_residual p us X f))) by (intros f I; apply (pre_some p m); auto); reflexivity).
  eexists. exists J. split; [exact E|]. split; auto. intro SV. destruct fs as [|f0 fs]; [contradiction|]. destruct (PR f0 ltac:(left; auto)) as (Hn & _ & FU & _). apply step_good; auto.
  - split; auto. split; auto. split; auto. split; auto. intros ds W. destruct (arn_vec_kernel p m us X (f0 :: fs) ds PR W) as (J' & E' & K). rewrite EJ in E'. injection E' as <-. exact K.
  - rewrite (concat_len (length X)); [rewrite map_length; auto|]. apply Forall_forall. intros r I. apply in_map_iff in I. destruct I as [f [<- I]]. apply (pre_some p m). auto.
Qed.

(* ---------------- fixed subspace ---------------- *)
Theorem vec_fixed_jacobian : forall (basis : list vec -> tbasis) (coefs : list vec -> list vec) m uf uc us ds X fs ys s zs, let U0 := pv_join m uf uc us in
  Forall (fun u => length u = m) uf -> Forall (fun u => length u = m) uc -> Forall (fun u => length u = length uc) us -> length ds = length us -> Forall (fun u => length u = length uc) ds -> Forall (fun x => length x = m) X -> Forall (fun f => length f = length X) fs ->
  near (fun t => let U := pv_join m uf uc (line us ds t) in basis_ok (basis U) (length uf + length us) /\ tb_deg (basis U) = tb_deg (basis U0) /\ ls_all (length (indices (basis U))) (vp_V (basis U) U X) fs (coefs U)) ->
  svd_mat (length X) (length (indices (basis U0))) (vp_V (basis U0) U0 X) ys s zs -> (forall k, (k < length s)%nat -> vget s k <> 0) ->
  jac_dir (length fs * length X) (length uc) (fun V => let U := pv_join m uf uc V in vv_residual (vp_V (basis U) U X) fs (coefs U)) us ds
    (pv_fixed (length fs * length X) m (length uf) (length us) uc (vv_jac (basis U0) U0 m X ys s zs fs (coefs U0))).
Proof.
  intros basis coefs m uf uc us ds X fs ys s zs U0 FF FC FU Ld FD FX Ff NR SV SN. apply (fixed_dir _ m uf uc us ds (fun U => vv_residual (vp_V (basis U) U X) fs (coefs U))); auto. fold U0.
  assert (LU : length U0 = (length uf + length us)%nat) by apply pv_join_len. apply vec_jacobian; auto.
  - rewrite lift_len. lia.
  - apply pv_join_dims; auto.
  - apply lift_dims; auto.
  - revert NR. apply near_imp. cbv zeta. intro t. rewrite pv_join_line by auto. fold U0. rewrite LU. auto.
Qed.
Theorem vec_fixed_step : forall B m uf uc us X fs cs ys s zs yJ sJ zJ, let U := pv_join m uf uc us in (1 <= length us)%nat -> Forall (fun u => length u = m) uf -> Forall (fun u => length u = m) uc -> Forall (fun u => length u = length uc) us -> orthonormal us ->
  vv_pre B m U X fs cs ys s zs -> let r := vv_residual (vp_V B U X) fs cs in let J := pv_fixed (length fs * length X) m (length uf) (length us) uc (vv_jac B U m X ys s zs fs cs) in
  gn_svd (length fs * length X) (length us) J yJ sJ zJ -> good_step (length fs * length X) (length uc) us J r (gn_solve (length uc * length us) (length us) yJ sJ zJ r).
Proof.
  intros B m uf uc us X fs cs ys s zs yJ sJ zJ U Hn FF FC FU OU P r J SV. apply step_good; auto; [apply fixed_jker; auto; apply vv_jker; auto|]. destruct P as (_ & _ & FX & Ff & _ & L & _). unfold r. rewrite vv_len; rewrite ?vp_V_len; auto.
Qed.
Theorem arn_fixed_jacobian : forall p m uf uc us X fs, Forall (fun u => length u = m) uf -> Forall (fun u => length u = m) uc -> Forall (fun u => length u = length uc) us -> (forall f, In f fs -> va_pre p m (pv_join m uf uc us) X f) ->
  exists J, va_vec_jac p m (pv_join m uf uc us) X fs = Some J /\ forall ds, length ds = length us -> Forall (fun u => length u = length uc) ds ->
    jac_dir (length fs * length X) (length uc) (fun V => getv (va_vec_residual p (pv_join m uf uc V) X fs)) us ds (pv_fixed (length fs * length X) m (length uf) (length us) uc J).
Proof.
  intros p m uf uc us X fs FF FC FU PR. destruct (arn_vec_jacobian p m (pv_join m uf uc us) X fs PR) as (J & E & D). exists J. split; auto. intros ds Ld FD. apply (fixed_dir _ m uf uc us ds (fun U => getv (va_vec_residual p U X fs))); auto. apply D; [rewrite lift_len, pv_join_len; lia|apply lift_dims; auto].
Qed.
Theorem arn_fixed_step : forall p m uf uc us X fs yJ sJ zJ, let U := pv_join m uf uc us in (1 <= length us)%nat -> Forall (fun u => length u = m) uf -> Forall (fun u => length u = m) uc -> Forall (fun u => length u = length uc) us -> orthonormal us ->
  (forall f, In f fs -> va_pre p m U X f) -> exists r J, va_vec_residual p U X fs = Some r /\ va_vec_jac p m U X fs = Some J /\
  let JJ := pv_fixed (length fs * length X) m (length uf) (length us) uc J in
  (gn_svd (length fs * length X) (length us) JJ yJ sJ zJ -> good_step (length fs * length X) (length uc) us JJ r (gn_solve (length uc * length us) (length us) yJ sJ zJ r)).
Proof.
  intros p m uf uc us X fs yJ sJ zJ U Hn FF FC FU OU PR. destruct (va_jac_zero p m U X fs (vzero (m * length U)) PR (repeat_length _ _)) as (J & EJ & LJ & FJ & _).
  assert (E : va_vec_residual p U X fs = Some (concat (map (fun f => getv (va_residual p U X f)) fs))) by (unfold va_vec_residual; rewrite (some_map _ _ _ (fun f => getv (va_residual p U X f))) by (intros f I; apply (pre_some p m); auto); reflexivity).
  eexists. exists J. split; [exact E|]. split; auto. intros JJ SV. apply step_good; auto.
  - apply fixed_jker; auto. split; [unfold U; rewrite pv_join_len; lia|]. split; [apply pv_join_dims; auto|]. split; auto. split; auto. intros ds W. destruct (arn_vec_kernel p m U X fs ds PR W) as (J' & E' & K). rewrite EJ in E'. injection E' as <-. exact K.
  - rewrite (concat_len (length X)); [rewrite map_length; auto|]. apply Forall_forall. intros r I. apply in_map_iff in I. destruct I as [f [<- I]]. apply (pre_some p m). auto.
Qed.

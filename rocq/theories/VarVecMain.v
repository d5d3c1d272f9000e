(** Several outputs: main statements of C136. *)
Require Import Reals Lra Lia List Bool Arith.
From Verif Require Import RVec Num Sums DomModel DomMoreModel SweepProofs HullProofs Deriv BasisModel IndexProofs PolyProofs MatLib SpecProofs GrassLib LipModel LipFitProofs SubModel ActiveProofs RidgeModel RidgeProofs TrajProofs PolySpan VarproLib VarproProofs GnStep RidgeFitProofs ArnoldiProofs ArnoldiMoreProofs PolyfitModel PolyfitProofs LsqAlg ProjGradProofs VarArnModel VarArnProofs VarArnDeriv VarArnMain VarVecModel VarVecProofs.
Import ListNotations.
Local Open Scope R_scope.

Lemma jac_dir_ext : forall M m F G us ds J, near (fun t => F (line us ds t) = G (line us ds t)) -> jac_dir M m F us ds J -> jac_dir M m G us ds J.
Proof.
  intros M m F G us ds J E (LJ & FJ & D). split; auto. split; auto. intros a Ha. apply (d_close _ _ _ 0 (D a Ha)); [lra|]. revert E. apply near_imp. intros t ->. rewrite Rminus_diag_eq by auto. rewrite Rabs_R0. lra.
Qed.
Lemma vv_as_seq : forall V fs cs, length cs = length fs -> vv_residual V fs cs = concat (map (fun o => vp_residual V (nth o fs []) (nth o cs [])) (seq 0 (length fs))).
Proof.
  intros V fs cs L. unfold vv_residual. f_equal. apply (nth_ext _ _ [] []); rewrite comb_len by auto; [rewrite map_length, seq_length; auto|]. intros o Ho. rewrite comb_nth by auto. rewrite nth_map_seq by auto. reflexivity.
Qed.
Lemma near_here : forall P, near P -> P 0. Proof. intros P [d [Hd H]]. apply H. rewrite Rabs_R0. auto. Qed.
Theorem vec_jacobian : forall (basis : list vec -> tbasis) (coefs : list vec -> list vec) m us ds X fs ys s zs,
  length ds = length us -> Forall (fun u => length u = m) us -> Forall (fun u => length u = m) ds -> Forall (fun x => length x = m) X -> Forall (fun f => length f = length X) fs ->
  near (fun t => let U := line us ds t in basis_ok (basis U) (length us) /\ tb_deg (basis U) = tb_deg (basis us) /\ ls_all (length (indices (basis U))) (vp_V (basis U) U X) fs (coefs U)) ->
  svd_mat (length X) (length (indices (basis us))) (vp_V (basis us) us X) ys s zs -> (forall k, (k < length s)%nat -> vget s k <> 0) ->
  jac_dir (length fs * length X) m (fun U => vv_residual (vp_V (basis U) U X) fs (coefs U)) us ds (vv_jac (basis us) us m X ys s zs fs (coefs us)).
Proof.
  intros basis coefs m us ds X fs ys s zs Ld FU FD FX FF NR SV SN. pose proof (near_here _ NR) as N0. cbv beta zeta in N0. rewrite (line_0 m) in N0 by auto. destruct N0 as (_ & _ & Lc0 & LS0).
  apply (jac_dir_ext _ _ (fun U => concat (map (fun o => vp_residual (vp_V (basis U) U X) (nth o fs []) (nth o (coefs U) [])) (seq 0 (length fs))))).
  { revert NR. apply near_imp. intros t (_ & _ & L & _). symmetry. apply vv_as_seq. auto. }
  unfold vv_jac. apply (stack_dir (length X) m (length fs) us ds (fun o U => vp_residual (vp_V (basis U) U X) (nth o fs []) (nth o (coefs U) []))); auto.
  - apply comb_len. auto.
  - exists 1. split; [lra|]. intros t _ o Ho. rewrite vp_res_len; rewrite vp_V_len; auto. apply Forall_nth_len; auto.
  - intros o Ho. rewrite comb_nth by auto. cbn [fst snd]. assert (Lf : length (nth o fs []) = length X) by (apply Forall_nth_len; auto). destruct (LS0 o Ho) as [Lc _].
    split; [apply vp_jac_len|]. split; [apply vp_jac_cols; auto; rewrite vp_res_len; rewrite vp_V_len; auto|]. intros a Ha.
    apply (varpro_jacobian_correct basis (fun U => nth o (coefs U) []) m (length us) us ds X (nth o fs []) ys s zs a eq_refl Ld FU FD FX Lf Ha); auto.
    revert NR. apply near_imp. cbv zeta. intros t (A & C & L & H). split; auto.
Qed.
Lemma vv_jac_zero : forall B m us X fs cs ys s zs q, Forall (fun f => length f = length X) fs -> svd_mat (length X) (length (indices B)) (vp_V B us X) ys s zs -> ls_all (length (indices B)) (vp_V B us X) fs cs -> length q = (m * length us)%nat ->
  length (vv_jac B us m X ys s zs fs cs) = (m * length us)%nat /\ Forall (fun v => length v = (length fs * length X)%nat) (vv_jac B us m X ys s zs fs cs) /\
  ((forall o, (o < length fs)%nat -> lincomb (length X) (vp_jac B us m X ys s zs (nth o cs []) (vp_residual (vp_V B us X) (nth o fs []) (nth o cs []))) q = vzero (length X)) -> lincomb (length fs * length X) (vv_jac B us m X ys s zs fs cs) q = vzero (length fs * length X)).
Proof.
  intros B m us X fs cs ys s zs q FF SV [L LS] Lq. unfold vv_jac.
  set (g := fun fc : vec * vec => vp_jac B us m X ys s zs (snd fc) (vp_residual (vp_V B us X) (fst fc) (snd fc))).
  assert (FJ : Forall (fun J => length J = (m * length us)%nat /\ Forall (fun v => length v = length X) J) (map g (combine fs cs))).
  { apply comb_all; auto. intros o Ho. unfold g. cbn [fst snd]. destruct (LS o Ho) as [Lc _]. split; [apply vp_jac_len|]. apply vp_jac_cols; auto. rewrite vp_res_len; rewrite vp_V_len; auto. apply Forall_nth_len; auto. }
  destruct (vstack_dims _ _ _ FJ) as [LV FV]. rewrite (comb_len _ g fs cs L) in FV. split; auto. split; auto. intro Z.
  rewrite <- (comb_len _ g fs cs L). rewrite vstack_apply by auto. rewrite (comb_len _ g fs cs L). symmetry. apply (concat_ext (length X)).
  - apply Forall_forall. intros v I. apply in_map_iff in I. destruct I as [J [<- IJ]]. rewrite Forall_forall in FJ. apply lincomb_length. apply FJ; auto.
  - unfold vzero. rewrite repeat_length, map_length, comb_len by auto. reflexivity.
  - intros o a Ho Ha. rewrite map_length, comb_len in Ho by auto. rewrite vzero_get. rewrite (nth_indep _ [] (lincomb (length X) [] q)) by (rewrite map_length, comb_len; auto). rewrite (map_nth (fun J => lincomb (length X) J q)). rewrite comb_nth by auto. unfold g. cbn [fst snd]. rewrite Z by auto. rewrite vzero_get. reflexivity.
Qed.
Theorem vec_kernel : forall B m us ds X fs cs ys s zs, basis_ok B (length us) -> Forall (fun u => length u = m) us -> Forall (fun x => length x = m) X -> Forall (fun f => length f = length X) fs -> within m us ds ->
  svd_mat (length X) (length (indices B)) (vp_V B us X) ys s zs -> ls_all (length (indices B)) (vp_V B us X) fs cs ->
  lincomb (length fs * length X) (vv_jac B us m X ys s zs fs cs) (flat m ds) = vzero (length fs * length X).
Proof.
  intros B m us ds X fs cs ys s zs OB FU FX FF W SV LA. pose proof W as [Ld _]. apply vv_jac_zero; auto; [rewrite flat_len; lia|]. destruct LA as [L LS]. intros o Ho.
  assert (Lf : length (nth o fs []) = length X) by (apply Forall_nth_len; auto). destruct (LS o Ho) as [Lc LSo]. apply (jac_kernel B m (length us)); auto.
  - rewrite vp_res_len; rewrite vp_V_len; auto.
  - intros e Le. apply (ls_normal (length (indices B))); auto; [apply vp_V_rows|rewrite vp_V_len; auto].
Qed.

(* ---------------- Arnoldi basis ---------------- *)
Lemma some_map : forall (A C : Type) (g : A -> option C) (h : A -> C) l, (forall x, In x l -> g x = Some (h x)) -> all_some (map g l) = Some (map h l).
Proof. intros A C g h l. induction l as [|x l IH]; intro H; [reflexivity|]. cbn. rewrite (H x) by (left; auto). rewrite IH by (intros; apply H; right; auto). reflexivity. Qed.
Theorem arn_vec_same : forall p m us X fs B' n' us' cs', (forall f, In f fs -> va_pre p m us X f) -> basis_ok B' n' -> tb_deg B' = p -> length us' = n' -> Forall (fun u => length u = m) us' -> same_span m us us' ->
  ls_all (length (indices B')) (vp_V B' us' X) fs cs' -> va_vec_residual p us X fs = Some (vv_residual (vp_V B' us' X) fs cs').
Proof.
  intros p m us X fs B' n' us' cs' PR OB D L' FU' SS [L LS]. unfold va_vec_residual.
  assert (E : all_some (map (va_residual p us X) fs) = Some (map (fun fc : vec * vec => vp_residual (vp_V B' us' X) (fst fc) (snd fc)) (combine fs cs'))).
  { assert (H : forall o, (o < length fs)%nat -> va_residual p us X (nth o fs []) = Some (vp_residual (vp_V B' us' X) (nth o fs []) (nth o cs' []))) by (intros o Ho; apply (arn_same_residual p m us X (nth o fs []) B' n' us'); auto; apply PR, nth_In; auto).
    clear PR LS. revert cs' L H. induction fs as [|f fs IH]; intros cs' L H; destruct cs' as [|c cs']; try discriminate L; [reflexivity|]. cbn [map combine]. pose proof (H 0%nat ltac:(cbn; lia)) as H0. cbn [nth] in H0. rewrite H0. cbn [all_some fst snd]. rewrite (IH cs'); auto. intros o Ho. apply (H (S o)). cbn. lia. }
  rewrite E. reflexivity.
Qed.
Definition getv (o : option vec) : vec := match o with Some r => r | None => [] end.
Lemma pre_near : forall p m us X f ds, va_pre p m us X f -> length ds = length us -> Forall (fun u => length u = m) ds -> near (fun t => va_pre p m (line us ds t) X f).
Proof.
  intros p m us X f ds PR Ld FD. destruct (pre_frame _ _ _ _ _ PR) as (Q & Rs & FR). pose proof PR as (Hn & NE & FU & FX & Lf & US). generalize (uni_near p m us X f Hn FU FX Lf Q Rs FR ds Ld FD). apply near_imp. intros t U. assert (LL : length (line us ds t) = length us) by (apply line_len; auto).
  split; [rewrite LL; auto|]. split; auto. split; [apply line_dims; auto|]. split; auto. split; auto. rewrite LL. exact U.
Qed.
Lemma pre_some : forall p m us X f, va_pre p m us X f -> va_residual p us X f = Some (getv (va_residual p us X f)) /\ length (getv (va_residual p us X f)) = length X.
Proof. intros p m us X f PR. destruct (arn_residual_best p m us X f PR) as (r & c & E & L & _). rewrite E. cbn. auto. Qed.
Theorem arn_vec_jacobian : forall p m us X fs, (forall f, In f fs -> va_pre p m us X f) ->
  exists J, va_vec_jac p m us X fs = Some J /\ forall ds, length ds = length us -> Forall (fun u => length u = m) ds -> jac_dir (length fs * length X) m (fun U => getv (va_vec_residual p U X fs)) us ds J.
Proof.
  intros p m us X fs PR. set (jf := fun f => match va_jac p m us X f with Some J => J | None => [] end).
  assert (EJ : forall f, In f fs -> va_jac p m us X f = Some (jf f)) by (intros f I; unfold jf; destruct (arn_jacobian p m us X f (PR f I)) as (J & -> & _); reflexivity).
  exists (vstack (m * length us) (map jf fs)). split; [unfold va_vec_jac; rewrite (some_map _ _ _ jf) by auto; reflexivity|]. intros ds Ld FD.
  assert (NP : near (fun t => forall o, (o < length fs)%nat -> va_pre p m (line us ds t) X (nth o fs []))) by (apply near_all; intros o Ho; apply pre_near; auto; apply PR, nth_In; auto).
  apply (jac_dir_ext _ _ (fun U => concat (map (fun o => getv (va_residual p U X (nth o fs []))) (seq 0 (length fs))))).
  { revert NP. apply near_imp. intros t H. unfold va_vec_residual. rewrite (some_map _ _ _ (fun f => getv (va_residual p (line us ds t) X f))) by (intros f I; apply (In_nth _ _ []) in I; destruct I as [o [Ho <-]]; apply (pre_some p m); auto).
    cbn [option_map getv]. f_equal. apply (nth_ext _ _ [] []); rewrite ?map_length, ?seq_length; auto. intros o Ho. rewrite (nth_indep (map _ fs) [] (getv (va_residual p (line us ds t) X []))) by (rewrite map_length; auto). rewrite (map_nth (fun f => getv (va_residual p (line us ds t) X f))). rewrite nth_map_seq by auto. reflexivity. }
  apply (stack_dir (length X) m (length fs) us ds (fun o U => getv (va_residual p U X (nth o fs [])))); auto.
  - apply map_length.
  - revert NP. apply near_imp. intros t H o Ho. apply (pre_some p m); auto.
  - intros o Ho. rewrite (nth_indep _ [] (jf [])) by (rewrite map_length; auto). rewrite (map_nth jf). set (f := nth o fs []). assert (I : In f fs) by (apply nth_In; auto). destruct (arn_jacobian p m us X f (PR f I)) as (J & E & LJ & D). rewrite (EJ f I) in E. injection E as E. rewrite E.
    assert (FJ : Forall (fun v => length v = length X) J). { destruct (pre_frame _ _ _ _ _ (PR f I)) as (Q & Rs & FR). destruct (PR f I) as (Hn & NE & FU & FX & Lf & US). pose proof (vjac_is p m us X f Hn Lf Q Rs FR) as E2. rewrite (EJ f I), E in E2. injection E2 as ->. apply (vjac_cols p m us X f Hn NE Lf Q Rs FR). }
    split; auto. split; auto. intros a Ha. eapply d_ext; [| |apply (D ds a Ld FD Ha)]; auto. intro t. cbv beta. destruct (va_residual p (line us ds t) X f); cbn; auto. unfold vget. destruct a; reflexivity.
Qed.
Theorem arn_vec_same_jacobian : forall p m us X fs B ys s zs cs, (forall f, In f fs -> va_pre p m us X f) -> basis_ok B (length us) -> tb_deg B = p ->
  svd_mat (length X) (length (indices B)) (vp_V B us X) ys s zs -> (forall k, (k < length s)%nat -> vget s k <> 0) -> ls_all (length (indices B)) (vp_V B us X) fs cs ->
  va_vec_jac p m us X fs = Some (vv_jac B us m X ys s zs fs cs).
Proof.
  intros p m us X fs B ys s zs cs PR OB DB SV SN [L LS]. unfold va_vec_jac, vv_jac.
  assert (E : all_some (map (va_jac p m us X) fs) = Some (map (fun fc : vec * vec => vp_jac B us m X ys s zs (snd fc) (vp_residual (vp_V B us X) (fst fc) (snd fc))) (combine fs cs))).
  { assert (H : forall o, (o < length fs)%nat -> va_jac p m us X (nth o fs []) = Some (vp_jac B us m X ys s zs (nth o cs []) (vp_residual (vp_V B us X) (nth o fs []) (nth o cs [])))) by (intros o Ho; apply arn_same_jacobian; auto; apply PR, nth_In; auto).
    clear PR LS. revert cs L H. induction fs as [|f fs IH]; intros cs L H; destruct cs as [|c cs]; try discriminate L; [reflexivity|]. cbn [map combine]. pose proof (H 0%nat ltac:(cbn; lia)) as H0. cbn [nth] in H0. rewrite H0. cbn [all_some fst snd]. rewrite (IH cs); auto. intros o Ho. apply (H (S o)). cbn. lia. }
  rewrite E. reflexivity.
Qed.
Lemma va_jac_zero : forall p m us X fs q, (forall f, In f fs -> va_pre p m us X f) -> length q = (m * length us)%nat ->
  exists J, va_vec_jac p m us X fs = Some J /\ length J = (m * length us)%nat /\ Forall (fun v => length v = (length fs * length X)%nat) J /\
  ((forall f, In f fs -> exists J', va_jac p m us X f = Some J' /\ lincomb (length X) J' q = vzero (length X)) -> lincomb (length fs * length X) J q = vzero (length fs * length X)).
Proof.
  intros p m us X fs q PR Lq. set (jf := fun f => match va_jac p m us X f with Some J => J | None => [] end).
  assert (EJ : forall f, In f fs -> va_jac p m us X f = Some (jf f)) by (intros f I; unfold jf; destruct (arn_jacobian p m us X f (PR f I)) as (J & -> & _); reflexivity).
  exists (vstack (m * length us) (map jf fs)). split; [unfold va_vec_jac; rewrite (some_map _ _ _ jf) by auto; reflexivity|].
  assert (FJ : Forall (fun J => length J = (m * length us)%nat /\ Forall (fun v => length v = length X) J) (map jf fs)).
  { apply Forall_forall. intros J I. apply in_map_iff in I. destruct I as [f [<- I]]. destruct (pre_frame _ _ _ _ _ (PR f I)) as (Q & Rs & FR). destruct (PR f I) as (Hn & NE & FU & FX & Lf & US). pose proof (vjac_is p m us X f Hn Lf Q Rs FR) as E2. rewrite (EJ f I) in E2. injection E2 as ->. apply (vjac_cols p m us X f Hn NE Lf Q Rs FR). }
  destruct (vstack_dims _ _ _ FJ) as [LV FV]. rewrite map_length in FV. split; auto. split; auto. intro Z.
  rewrite <- (map_length jf fs). rewrite vstack_apply by auto. rewrite map_length. symmetry. apply (concat_ext (length X)).
  - apply Forall_forall. intros v I. apply in_map_iff in I. destruct I as [J [<- IJ]]. rewrite Forall_forall in FJ. apply lincomb_length. apply FJ; auto.
  - unfold vzero. rewrite repeat_length, !map_length. reflexivity.
  - intros o a Ho Ha. rewrite !map_length in Ho. rewrite vzero_get. rewrite (nth_indep _ [] (lincomb (length X) (jf []) q)) by (rewrite !map_length; auto). rewrite map_map. rewrite (map_nth (fun f => lincomb (length X) (jf f) q)).
    set (f := nth o fs []). assert (I : In f fs) by (apply nth_In; auto). destruct (Z f I) as (J & E & K). rewrite (EJ f I) in E. injection E as ->. rewrite K, vzero_get. reflexivity.
Qed.
Theorem arn_vec_kernel : forall p m us X fs ds, (forall f, In f fs -> va_pre p m us X f) -> within m us ds -> exists J, va_vec_jac p m us X fs = Some J /\ lincomb (length fs * length X) J (flat m ds) = vzero (length fs * length X).
Proof.
  intros p m us X fs ds PR W. pose proof W as [Ld _]. destruct (va_jac_zero p m us X fs (flat m ds) PR) as (J & E & _ & _ & Z); [rewrite flat_len; lia|]. exists J. split; auto. apply Z. intros f I. apply arn_kernel; auto.
Qed.

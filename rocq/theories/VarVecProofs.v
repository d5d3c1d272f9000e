(** Several outputs: the stacked residual and Jacobian. *)
Require Import Reals Lra Lia List Bool Arith.
From Verif Require Import RVec Num Sums DomModel DomMoreModel SweepProofs HullProofs Deriv BasisModel IndexProofs PolyProofs MatLib SpecProofs GrassLib LipModel LipFitProofs SubModel ActiveProofs RidgeModel RidgeProofs TrajProofs PolySpan VarproLib VarproProofs GnStep RidgeFitProofs ArnoldiProofs ArnoldiMoreProofs PolyfitModel PolyfitProofs LsqAlg ProjGradProofs VarArnModel VarArnProofs VarArnDeriv VarArnMain VarVecModel.
Import ListNotations.
Local Open Scope R_scope.

(* ---------------- concatenation of vectors of the same length ---------------- *)
Lemma concat_len : forall M (rs : list vec), Forall (fun r => length r = M) rs -> length (concat rs) = (length rs * M)%nat.
Proof. induction 1 as [|r rs L _ IH]; [reflexivity|]. cbn. rewrite app_length, IH, L. reflexivity. Qed.
Lemma concat_get : forall M (rs : list vec) o a, Forall (fun r => length r = M) rs -> (o < length rs)%nat -> (a < M)%nat -> vget (concat rs) (o * M + a) = vget (nth o rs []) a.
Proof.
  intros M rs. induction rs as [|r rs IH]; intros o a F Ho Ha; [cbn in Ho; lia|]. inversion F as [|? ? L F']; subst. cbn [concat]. unfold vget in *. destruct o as [|o].
  - cbn [nth]. rewrite app_nth1 by (cbn; lia). f_equal.
  - cbn [nth length] in *. rewrite app_nth2 by (cbn; lia). replace (S o * length r + a - length r)%nat with (o * length r + a)%nat by (cbn; lia). apply IH; auto. lia.
Qed.
Lemma concat_ext : forall M (xs : list vec) (v : vec), Forall (fun r => length r = M) xs -> length v = (length xs * M)%nat -> (forall o a, (o < length xs)%nat -> (a < M)%nat -> vget v (o * M + a) = vget (nth o xs []) a) -> v = concat xs.
Proof.
  intros M xs v F L H. apply vec_ext; [rewrite (concat_len M); auto|]. intros i Hi. rewrite L in Hi. destruct (Nat.eq_dec M 0) as [->|NM]; [lia|].
  assert (Ha : (i mod M < M)%nat) by (apply Nat.mod_upper_bound; auto). assert (Ho : (i / M < length xs)%nat) by (apply Nat.div_lt_upper_bound; lia). rewrite (Nat.div_mod i M NM). rewrite (Nat.mul_comm M). rewrite H, (concat_get M) by auto. reflexivity.
Qed.
Lemma concat_norm : forall (rs : list vec), norm2sq (concat rs) = rsum (length rs) (fun o => norm2sq (nth o rs [])).
Proof.
  induction rs as [|r rs IH]; [unfold norm2sq; cbn; apply dot_nil_l|]. cbn [concat length]. rewrite rsum_S_first. cbn [nth]. rewrite <- IH. unfold norm2sq. clear IH. induction r as [|a r IHr]; [rewrite dot_nil_l; cbn; ring|]. cbn [app]. rewrite !dot_cons, IHr. ring.
Qed.
Lemma Forall_nth_len : forall M (rs : list vec) o, Forall (fun r => length r = M) rs -> (o < length rs)%nat -> length (nth o rs []) = M.
Proof. intros M rs o F Ho. rewrite Forall_forall in F. apply F, nth_In; auto. Qed.
Lemma comb_nth : forall (A : Type) (g : vec * vec -> A) fs cs o d, length cs = length fs -> (o < length fs)%nat -> nth o (map g (combine fs cs)) d = g (nth o fs [], nth o cs []).
Proof. intros A g fs cs o d L Ho. rewrite (nth_indep _ d (g ([], []))) by (rewrite map_length, combine_length; lia). rewrite (map_nth g). rewrite combine_nth by auto. reflexivity. Qed.
Lemma comb_len : forall (A : Type) (g : vec * vec -> A) fs cs, length cs = length fs -> length (map g (combine fs cs)) = length fs.
Proof. intros. rewrite map_length, combine_length. lia. Qed.
Lemma comb_all : forall (A : Type) (P : A -> Prop) (g : vec * vec -> A) fs cs, length cs = length fs -> (forall o, (o < length fs)%nat -> P (g (nth o fs [], nth o cs []))) -> Forall P (map g (combine fs cs)).
Proof.
  intros A P g fs cs L H. apply Forall_forall. intros x I. apply in_map_iff in I. destruct I as [fc [<- I]]. apply (In_nth _ _ ([], [])) in I. destruct I as [o [Ho E]]. rewrite combine_length in Ho. rewrite combine_nth in E by auto. rewrite <- E. apply H. lia.
Qed.

(* ---------------- the stacked Jacobian ---------------- *)
Lemma vstack_dims : forall M N Js, Forall (fun J => length J = N /\ Forall (fun v => length v = M) J) Js -> length (vstack N Js) = N /\ Forall (fun v => length v = (length Js * M)%nat) (vstack N Js).
Proof.
  intros M N Js F. split; [unfold vstack; rewrite map_length, seq_length; auto|]. apply Forall_forall. intros v I. unfold vstack in I. apply in_map_iff in I. destruct I as [i [<- I]]. apply in_seq in I. rewrite <- (map_length (fun J : list vec => nth i J []) Js). apply concat_len. apply Forall_forall. intros w W. apply in_map_iff in W. destruct W as [J [<- IJ]].
  rewrite Forall_forall in F. destruct (F J IJ) as [LJ FJ]. apply Forall_nth_len; auto. lia.
Qed.
Lemma vstack_apply : forall M N Js q, Forall (fun J => length J = N /\ Forall (fun v => length v = M) J) Js -> length q = N -> lincomb (length Js * M) (vstack N Js) q = concat (map (fun J => lincomb M J q) Js).
Proof.
  intros M N Js q F Lq. destruct (vstack_dims M N Js F) as [LV FV]. apply (concat_ext M).
  - apply Forall_forall. intros v I. apply in_map_iff in I. destruct I as [J [<- IJ]]. rewrite Forall_forall in F. destruct (F J IJ) as [LJ FJ]. apply lincomb_length; auto.
  - rewrite map_length. apply lincomb_length; auto.
  - intros o a Ho Ha. rewrite map_length in Ho. assert (HI : (o * M + a < length Js * M)%nat) by nia. rewrite MatLib.lincomb_get by (auto; lia). rewrite (nth_indep _ [] (lincomb M [] q)) by (rewrite map_length; auto). rewrite (map_nth (fun J => lincomb M J q)). rewrite Forall_forall in F. destruct (F (nth o Js []) ltac:(apply nth_In; auto)) as [LJ FJ]. rewrite MatLib.lincomb_get by (auto; lia).
    rewrite LV, LJ. apply rsum_ext. intros i Hi. f_equal. unfold vstack. rewrite nth_map_seq by auto. rewrite (concat_get M).
    + rewrite (nth_indep _ [] (nth i [] [])) by (rewrite map_length; auto). rewrite (map_nth (fun J : list vec => nth i J [])). reflexivity.
    + apply Forall_forall. intros w W. apply in_map_iff in W. destruct W as [J [<- IJ]]. destruct (F J IJ) as [LJ' FJ']. apply Forall_nth_len; auto. lia.
    + rewrite map_length. auto.
    + auto.
Qed.

(* ---------------- the stacked residual ---------------- *)
Lemma vp_res_len : forall V f c, length f = length V -> length (vp_residual V f c) = length V.
Proof. intros. unfold vp_residual. rewrite vsub_length; rewrite ?mv_length; auto. Qed.
Lemma vv_blocks : forall V fs cs, length cs = length fs -> Forall (fun f => length f = length V) fs -> Forall (fun r => length r = length V) (map (fun fc : vec * vec => vp_residual V (fst fc) (snd fc)) (combine fs cs)).
Proof. intros V fs cs L F. apply comb_all; auto. intros o Ho. apply vp_res_len. apply Forall_nth_len; auto. Qed.
Lemma vv_get : forall V fs cs o a, length cs = length fs -> Forall (fun f => length f = length V) fs -> (o < length fs)%nat -> (a < length V)%nat -> vget (vv_residual V fs cs) (o * length V + a) = vget (vp_residual V (nth o fs []) (nth o cs [])) a.
Proof. intros V fs cs o a L F Ho Ha. unfold vv_residual. rewrite (concat_get (length V)); auto; [|apply vv_blocks; auto|rewrite comb_len; auto]. rewrite comb_nth by auto. reflexivity. Qed.
Lemma vv_norm : forall V fs cs, length cs = length fs -> norm2sq (vv_residual V fs cs) = rsum (length fs) (fun o => norm2sq (vp_residual V (nth o fs []) (nth o cs []))).
Proof. intros V fs cs L. unfold vv_residual. rewrite concat_norm, comb_len by auto. apply rsum_ext. intros o Ho. rewrite comb_nth by auto. reflexivity. Qed.
(** scipy.linalg.lstsq(V, fX): a least-squares solution for each output *)
Definition ls_all (N : nat) (V : mat) (fs cs : list vec) : Prop := length cs = length fs /\ forall o, (o < length fs)%nat -> ls_opt N V (nth o fs []) (nth o cs []).
Theorem vec_best : forall N V fs cs cs', ls_all N V fs cs -> length cs' = length fs -> Forall (fun c => length c = N) cs' -> norm2 (vv_residual V fs cs) <= norm2 (vv_residual V fs cs').
Proof.
  intros N V fs cs cs' [L H] L' F'. unfold norm2. apply sqrt_le_1_alt. rewrite !vv_norm by auto. apply rsum_le. intros o Ho. apply norm2_le_sq. apply (H o Ho). apply Forall_nth_len; auto. lia.
Qed.
Theorem vec_subspace : forall B B' m n n' us us' X fs cs cs', basis_ok B n -> basis_ok B' n' -> tb_deg B' = tb_deg B -> length us = n -> length us' = n' -> Forall (fun u => length u = m) us -> Forall (fun u => length u = m) us' ->
  Forall (fun x => length x = m) X -> Forall (fun f => length f = length X) fs -> same_span m us us' -> ls_all (length (indices B)) (vp_V B us X) fs cs -> ls_all (length (indices B')) (vp_V B' us' X) fs cs' ->
  vv_residual (vp_V B us X) fs cs = vv_residual (vp_V B' us' X) fs cs'.
Proof.
  intros B B' m n n' us us' X fs cs cs' OB OB' DD Lu Lu' FU FU' FX FF SS [L H] [L' H']. unfold vv_residual. f_equal. apply (nth_ext _ _ [] []); rewrite ?comb_len; auto. intros o Ho. rewrite !comb_nth by auto. cbn [fst snd].
  apply (varpro_subspace B B' m n n'); auto. apply Forall_nth_len; auto.
Qed.

(* ---------------- derivative ---------------- *)
(** [J] is the Jacobian of [F] (with [M] values) at us, in the direction ds *)
Definition jac_dir (M m : nat) (F : list vec -> vec) (us ds J : list vec) : Prop :=
  length J = (m * length us)%nat /\ Forall (fun v => length v = M) J /\
  forall a, (a < M)%nat -> derivable_pt_lim (fun t => vget (F (line us ds t)) a) 0 (vget (lincomb M J (flat m ds)) a).
Lemma stack_dir : forall M m K us ds (r : nat -> list vec -> vec) (Js : list (list vec)), length Js = K -> length ds = length us -> near (fun t => forall o, (o < K)%nat -> length (r o (line us ds t)) = M) ->
  (forall o, (o < K)%nat -> jac_dir M m (r o) us ds (nth o Js [])) -> jac_dir (K * M) m (fun U => concat (map (fun o => r o U) (seq 0 K))) us ds (vstack (m * length us) Js).
Proof.
  intros M m K us ds r Js LK Ld Lr H. assert (FJ : Forall (fun J => length J = (m * length us)%nat /\ Forall (fun v => length v = M) J) Js) by (apply Forall_forall; intros J I; apply (In_nth _ _ []) in I; destruct I as [o [Ho <-]]; destruct (H o ltac:(lia)) as (A & C & _); auto).
  destruct (vstack_dims M (m * length us) Js FJ) as [LV FV]. rewrite LK in FV. split; auto. split; auto. intros i Hi. assert (NM : (M <> 0)%nat) by (intro; subst M; lia).
  set (o := (i / M)%nat). set (a := (i mod M)%nat). assert (Ha : (a < M)%nat) by (apply Nat.mod_upper_bound; auto). assert (Ho : (o < K)%nat) by (apply Nat.div_lt_upper_bound; lia). assert (E : i = (o * M + a)%nat) by (unfold o, a; pose proof (Nat.div_mod i M NM); lia).
  destruct (H o Ho) as (LJ & FJo & D). specialize (D a Ha). rewrite E.
  assert (EV : vget (lincomb (K * M) (vstack (m * length us) Js) (flat m ds)) (o * M + a) = vget (lincomb M (nth o Js []) (flat m ds)) a).
  { rewrite <- LK. rewrite vstack_apply by (auto; rewrite flat_len; lia). rewrite (concat_get M); auto; [|apply Forall_forall; intros v I; apply in_map_iff in I; destruct I as [J [<- IJ]]; rewrite Forall_forall in FJ; apply lincomb_length; apply FJ; auto|rewrite map_length; lia].
    rewrite (nth_indep _ [] (lincomb M [] (flat m ds))) by (rewrite map_length; lia). rewrite (map_nth (fun J => lincomb M J (flat m ds))). reflexivity. }
  rewrite EV. apply (d_close _ _ _ 0 D); [lra|]. revert Lr. apply near_imp. intros t Lt. rewrite (concat_get M).
  - rewrite nth_map_seq by auto. rewrite Rminus_diag_eq by auto. rewrite Rabs_R0. lra.
  - apply Forall_forall. intros v I. apply in_map_iff in I. destruct I as [q [<- I]]. apply in_seq in I. apply Lt. lia.
  - rewrite map_length, seq_length. auto.
  - auto.
Qed.

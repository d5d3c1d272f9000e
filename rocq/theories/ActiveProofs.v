(** ActiveSubspace.fit (subspace.py 314-341). *)
Require Import Reals List Bool Arith ZArith Lia Lra.
From Verif Require Import RVec Num Sums DomMoreModel SweepProofs HullIneqProofs ArnoldiMoreProofs MatLib SpecProofs LipModel LipFitProofs GrassLib SubModel.
Import ListNotations.
Local Open Scope R_scope.

(** specification: sum_l w_l g_l g_l^T, entrywise *)
Definition outer_avg (w : vec) (grads : mat) (i j : nat) : R := rsum (length grads) (fun l => vget w l * (vget (nth l grads []) i * vget (nth l grads []) j)).

Lemma as_cols_len : forall w grads, length w = length grads -> length (as_cols w grads) = length grads.
Proof. intros. unfold as_cols. rewrite zipw_length; auto. Qed.
Lemma as_cols_nth : forall w grads l, length w = length grads -> (l < length grads)%nat -> nth l (as_cols w grads) [] = vscale (sqrt (vget w l)) (nth l grads []).
Proof. intros. unfold as_cols, vget. apply (zipw_nth R vec vec (fun a g => vscale (sqrt a) g)); lia. Qed.
Lemma as_pad_len : forall m s, (length s <= m)%nat -> length (as_pad m s) = m.
Proof. intros. unfold as_pad. rewrite app_length, repeat_length. lia. Qed.
Lemma as_pad_get : forall m s k, (k < length s)%nat -> vget (as_pad m s) k = vget s k.
Proof. intros. unfold as_pad, vget. rewrite app_nth1; auto. Qed.
Lemma as_pad_over : forall m s k, (length s <= k)%nat -> vget (as_pad m s) k = 0.
Proof.
  intros m s k H. unfold as_pad, vget. rewrite app_nth2 by auto. generalize (k - length s)%nat as i, (m - length s)%nat as n. clear. intros i n. revert i.
  induction n; intros [|i]; simpl; auto.
Qed.
Lemma firstn_nth : forall (A : Type) n (l : list A) i d, (i < n)%nat -> nth i (firstn n l) d = nth i l d.
Proof. induction n; intros [|a l] [|i] d H; simpl; auto; try lia. apply IHn. lia. Qed.

Lemma vget_sq : forall (l : vec) k, (k < length l)%nat -> vget (map (fun a => a ^ 2) l) k = vget l k ^ 2.
Proof. intros l k H. unfold vget. rewrite nth_indep with (d' := 0 ^ 2) by (rewrite map_length; auto). apply (map_nth (fun a => a ^ 2)). Qed.
Lemma vscale_0 : forall x, vscale 0 x = vzero (length x).
Proof. induction x as [|a x IH]; auto. unfold vzero in *. cbn [length repeat]. rewrite <- IH. unfold vscale. cbn [map]. f_equal. ring. Qed.
Section FIT.
Variables (m : nat) (w : vec) (grads : mat) (us : list vec) (s : vec) (vs : list vec).
Hypothesis Lw : length w = length grads.
Hypothesis Pw : Forall (fun a => 0 <= a) w.
Hypothesis SV : svd_full m (as_cols w grads) us s vs.
Let N := length grads.

Lemma SVlen : (length s <= m)%nat /\ (length s <= N)%nat.
Proof. destruct SV as [_ [_ [L _]]]. rewrite as_cols_len in L by auto. unfold N. lia. Qed.
(** u_k . (sqrt w_l g_l) = s_k V_kl *)
Lemma proj_col : forall k l, (k < m)%nat -> (l < N)%nat -> sqrt (vget w l) * dot (nth k us []) (nth l grads []) = if Nat.ltb k (length s) then vget s k * vget (nth k vs []) l else 0.
Proof.
  intros k l Hk Hl. destruct SV as [OU [OV [Ls [Ps [Ds E]]]]]. destruct SVlen as [S1 S2].
  specialize (E l ltac:(rewrite as_cols_len; auto)). rewrite as_cols_nth in E by auto.
  assert (dot (nth k us []) (vscale (sqrt (vget w l)) (nth l grads [])) = sqrt (vget w l) * dot (nth k us []) (nth l grads [])) as A by apply dot_vscale_r.
  rewrite <- A, E. pose proof OU as [LU [FU OR]].
  assert (FF : Forall (fun u => length u = m) (firstn (length s) us)). { apply Forall_forall. intros u Iu. rewrite Forall_forall in FU. apply FU. apply In_nth with (d := []) in Iu. destruct Iu as [i [Hi Eu]]. rewrite firstn_length in Hi. rewrite <- Eu, firstn_nth by lia. apply nth_In. lia. }
  assert (LV : length vs = N) by (destruct OV as [LV _]; rewrite as_cols_len in LV; auto).
  assert (LC : length (vmul s (firstn (length s) (col vs l))) = length s). { rewrite vmul_length; auto. rewrite firstn_length, col_len. lia. }
  rewrite (dot_lincomb_r m) by (auto; rewrite LC, firstn_length; lia). rewrite firstn_length. replace (Nat.min (length s) (length us)) with (length s) by lia.
  destruct (Nat.ltb_spec k (length s)) as [Hs|Hs].
  - rewrite (rsum_single _ k); auto.
    + rewrite firstn_nth by auto. rewrite (OR k k) by lia. rewrite Nat.eqb_refl. rewrite vmul_get by (rewrite firstn_length, col_len; lia).
      unfold vget at 2. rewrite firstn_nth by auto. fold (vget (col vs l) k). rewrite col_get by lia. ring.
    + intros i Hi Ni. rewrite firstn_nth by auto. rewrite (OR k i) by lia. destruct (Nat.eqb_spec k i); [lia|ring].
  - apply rsum_zero. intros i Hi. rewrite firstn_nth by auto. rewrite (OR k i) by lia. destruct (Nat.eqb_spec k i); [lia|ring].
Qed.
(** sum_l w_l (u_j . g_l) (u_k . g_l) = s_j^2 delta_jk *)
Lemma diag_avg : forall j k, (j < m)%nat -> (k < m)%nat ->
  rsum N (fun l => vget w l * (dot (nth j us []) (nth l grads []) * dot (nth k us []) (nth l grads []))) = if Nat.eqb j k then vget (as_pad m s) j ^ 2 else 0.
Proof.
  intros j k Hj Hk. destruct SVlen as [S1 S2]. pose proof SV as [OU [OV _]]. rewrite as_cols_len in OV by auto. fold N in OV.
  rewrite (rsum_ext N _ (fun l => (if Nat.ltb j (length s) then vget s j * vget (nth j vs []) l else 0) * (if Nat.ltb k (length s) then vget s k * vget (nth k vs []) l else 0))).
  2:{ intros l Hl. rewrite <- !proj_col by auto. replace (vget w l) with (sqrt (vget w l) * sqrt (vget w l)) at 1; [ring|]. apply sqrt_sqrt. rewrite Forall_forall in Pw. apply Pw. unfold vget. apply nth_In. unfold N in Hl. lia. }
  destruct (Nat.ltb_spec j (length s)) as [Hs|Hs], (Nat.ltb_spec k (length s)) as [Ht|Ht].
  - rewrite (rsum_ext N _ (fun l => (vget s j * vget s k) * (vget (nth j vs []) l * vget (nth k vs []) l))) by (intros; ring). rewrite rsum_scal_l.
    rewrite <- (dot_rs N) by (apply (onb_row N); auto; lia). destruct OV as [LV [_ OR]]. rewrite OR by lia. destruct (Nat.eqb_spec j k); [subst k; rewrite as_pad_get by auto|]; ring.
  - rewrite rsum_zero by (intros; ring). destruct (Nat.eqb_spec j k); [lia|auto].
  - rewrite rsum_zero by (intros; ring). destruct (Nat.eqb_spec j k); [lia|auto].
  - rewrite rsum_zero by (intros; ring). destruct (Nat.eqb_spec j k); auto. rewrite as_pad_over by auto. ring.
Qed.
Lemma C_entries : forall i j, Forall (fun g => length g = m) grads -> (i < m)%nat -> (j < m)%nat ->
  mget (spec m (map (fun a => a ^ 2) (as_pad m s)) us) i j = outer_avg w grads i j.
Proof.
  intros i j FG Hi Hj. destruct SVlen as [S1 S2]. pose proof SV as [OU _]. pose proof OU as [LU [FU OR]].
  (* both sides as bilinear forms on the unit vectors *)
  assert (A : forall l, (l < N)%nat -> length (nth l grads []) = m) by (intros l Hl; rewrite Forall_forall in FG; apply FG, nth_In; auto).
  assert (Lp : length (map (fun a => a ^ 2) (as_pad m s)) = length us) by (rewrite map_length, as_pad_len by auto; lia).
  assert (G : mget (spec m (map (fun a => a ^ 2) (as_pad m s)) us) i j = dot (unitv m i) (mv (spec m (map (fun a => a ^ 2) (as_pad m s)) us) (unitv m j))).
  { rewrite dot_comm. rewrite dot_unitv by (auto; rewrite mv_length; apply (spec_sq m _ us FU)). rewrite mv_get by (rewrite (proj1 (spec_sq m _ us FU)); auto).
    rewrite dot_unitv; auto. apply (sq_row m); auto. apply spec_sq; auto. }
  rewrite G. rewrite mv_spec by auto. rewrite (dot_lincomb_r m) by (auto; rewrite vmul_length; rewrite ?mv_length; auto). rewrite LU.
  unfold outer_avg. fold N.
  rewrite (rsum_ext N _ (fun l => rsum m (fun a => rsum m (fun b => (dot (nth a us []) (unitv m i) * dot (nth b us []) (unitv m j)) * (vget w l * (dot (nth a us []) (nth l grads []) * dot (nth b us []) (nth l grads []))))))).
  2:{ intros l Hl. rewrite <- (dot_unitv m i (nth l grads [])), <- (dot_unitv m j (nth l grads [])) by auto.
      rewrite !(parseval_dot m us) by (auto; apply unitv_len). rewrite rsum_prod. rewrite <- rsum_scal_l. apply rsum_ext. intros a Ha. rewrite <- rsum_scal_l. apply rsum_ext. intros b Hb. ring. }
  rewrite (rsum_swap N m). apply rsum_ext. intros a Ha. rewrite (rsum_swap N m).
  rewrite (rsum_single m a); auto.
  - rewrite rsum_scal_l. rewrite diag_avg by auto. rewrite Nat.eqb_refl. rewrite vmul_get by (rewrite mv_length; auto). rewrite mv_get by lia. rewrite vget_sq by (rewrite as_pad_len; auto). rewrite (dot_comm (unitv m i)). ring.
  - intros b Hb Nb. rewrite rsum_scal_l. rewrite diag_avg by auto. destruct (Nat.eqb_spec a b); [lia|ring].
Qed.
End FIT.

Lemma as_weights_len : forall grads wo w, as_weights grads wo = w -> (forall v, wo = Some v -> length v = length grads) -> length w = length grads.
Proof. intros grads [v|] w <- H; simpl; [apply H; auto|apply repeat_length]. Qed.
Lemma as_weights_pos : forall grads wo w, as_weights grads wo = w -> (forall v, wo = Some v -> Forall (fun a => 0 <= a) v) -> Forall (fun a => 0 <= a) w.
Proof.
  intros grads [v|] w <- H; simpl; [apply H; auto|]. apply Forall_forall. intros a Ia. apply repeat_spec in Ia. subst a.
  destruct grads; [simpl; unfold Rdiv; rewrite Rinv_0; lra|]. left. apply Rmult_lt_0_compat; [lra|]. apply Rinv_0_lt_compat. apply lt_0_INR. simpl. lia.
Qed.

(** C = sum_l w_l g_l g_l^T for every exact singular value decomposition *)
Theorem as_C_correct : forall svd m grads wo U s C,
  Forall (fun g => length g = m) grads -> (forall v, wo = Some v -> length v = length grads /\ Forall (fun a => 0 <= a) v) ->
  (exists vs, svd_full m (as_cols (as_weights grads wo) grads) (fst (svd (as_cols (as_weights grads wo) grads))) (snd (svd (as_cols (as_weights grads wo) grads))) vs) ->
  as_fit svd m grads wo = (U, s, C) ->
  length s = m /\ sq m C /\
  (forall i j, (i < m)%nat -> (j < m)%nat -> mget C i j = outer_avg (as_weights grads wo) grads i j) /\
  (forall k, (k < m)%nat -> 0 <= vget s k) /\ (forall i j, (i <= j < m)%nat -> vget s j <= vget s i).
Proof.
  intros svd m grads wo U s C FG HW [vs SV] E. unfold as_fit in E. destruct (svd (as_cols (as_weights grads wo) grads)) as [us s0] eqn:ES. simpl fst in SV. simpl snd in SV.
  injection E as <- <- <-. set (w := as_weights grads wo) in *.
  assert (Lw : length w = length grads) by (apply (as_weights_len grads wo w); auto; intros; apply HW; auto).
  assert (Pw : Forall (fun a => 0 <= a) w) by (apply (as_weights_pos grads wo w); auto; intros; apply HW; auto).
  destruct (SVlen m w grads us s0 vs Lw SV) as [S1 S2].
  split; [apply as_pad_len; auto|]. pose proof SV as [[LU [FU OR]] [_ [_ [PS [DS _]]]]]. split; [apply spec_sq; auto|]. split; [intros; apply (C_entries m w grads us s0 vs); auto|].
  assert (P0 : forall k, 0 <= vget (as_pad m s0) k). { intros k. destruct (Nat.lt_ge_cases k (length s0)); [rewrite as_pad_get by auto; rewrite Forall_forall in PS; apply PS, nth_In; auto|rewrite as_pad_over by auto; lra]. }
  split; [intros; apply P0|]. intros i j Hij. destruct (Nat.lt_ge_cases j (length s0)).
  - rewrite !as_pad_get by lia. apply DS. lia.
  - rewrite (as_pad_over m s0 j) by auto. apply P0.
Qed.

Lemma sg_cols_nth : forall us grads k, (k < length us)%nat -> nth k (scale_cols (signs_grads us grads) us) [] = vscale (sgn (mean_slope (nth k us []) grads)) (nth k us []).
Proof.
  intros us grads k H. unfold scale_cols, signs_grads. rewrite (zipw_nth R vec vec vscale _ _ k 0 [] []) by (rewrite ?map_length; auto).
  f_equal. rewrite nth_indep with (d' := (fun u => sgn (vsum (map (fun g => dot g u) grads) / INR (length grads))) []) by (rewrite map_length; auto). rewrite (map_nth (fun u => sgn (vsum (map (fun g => dot g u) grads) / INR (length grads)))). auto.
Qed.
Lemma mean_zero : forall u grads, (forall g, In g grads -> dot g u = 0) -> mean_slope u grads = 0.
Proof.
  intros u grads H. unfold mean_slope. assert (vsum (map (fun g => dot g u) grads) = 0) as ->; [|unfold Rdiv; ring].
  induction grads as [|g l IH]; auto. cbn [map]. rewrite vsum_cons, IH by (intros; apply H; right; auto). rewrite H by (left; auto). ring.
Qed.
Lemma sg_cols_len : forall us grads, length (scale_cols (signs_grads us grads) us) = length us.
Proof. intros. unfold scale_cols. rewrite zipw_length; unfold signs_grads; rewrite map_length; auto. Qed.

(** the columns of U are the singular vectors up to a factor 1, -1 or 0; C U_k = s_k^2 U_k; the average slope along U_k is
    non-negative; U_k has unit norm exactly when the average slope along it is not zero *)
Theorem as_U_partial : forall svd m grads wo U s C,
  Forall (fun g => length g = m) grads -> (forall v, wo = Some v -> length v = length grads /\ Forall (fun a => 0 <= a) v) ->
  (exists vs, svd_full m (as_cols (as_weights grads wo) grads) (fst (svd (as_cols (as_weights grads wo) grads))) (snd (svd (as_cols (as_weights grads wo) grads))) vs) ->
  as_fit svd m grads wo = (U, s, C) ->
  length U = m /\ Forall (fun u => length u = m) U /\
  (forall k, (k < m)%nat -> mv C (nth k U []) = vscale (vget s k ^ 2) (nth k U []) /\ 0 <= mean_slope (nth k U []) grads /\
     (norm2 (nth k U []) = 1 \/ nth k U [] = vzero m) /\ (norm2 (nth k U []) = 1 <-> mean_slope (nth k U []) grads <> 0)) /\
  (forall j k, (j < m)%nat -> (k < m)%nat -> j <> k -> dot (nth j U []) (nth k U []) = 0) /\
  ((forall k, (k < m)%nat -> mean_slope (nth k U []) grads <> 0) -> onb m U /\ C = spec m (map (fun a => a ^ 2) s) U).
Proof.
  intros svd m grads wo U s C FG HW [vs SV] E. unfold as_fit in E. destruct (svd (as_cols (as_weights grads wo) grads)) as [us s0] eqn:ES. simpl fst in SV. simpl snd in SV.
  injection E as <- <- <-. set (w := as_weights grads wo) in *.
  assert (Lw : length w = length grads) by (apply (as_weights_len grads wo w); auto; intros; apply HW; auto).
  destruct (SVlen m w grads us s0 vs Lw SV) as [S1 S2]. pose proof SV as [[LU [FU OR]] _].
  set (U := scale_cols (signs_grads us grads) us). assert (LU' : length U = m) by (unfold U; rewrite sg_cols_len; auto).
  assert (NU : forall k, (k < m)%nat -> nth k U [] = vscale (sgn (mean_slope (nth k us []) grads)) (nth k us [])) by (intros; apply sg_cols_nth; lia).
  assert (MS : forall c u, mean_slope (vscale c u) grads = c * mean_slope u grads).
  { intros c u. unfold mean_slope. replace (vsum (map (fun g => dot g (vscale c u)) grads)) with (c * vsum (map (fun g => dot g u) grads)); [unfold Rdiv; ring|].
    clear. induction grads as [|g l IH]; [simpl; ring|]. cbn [map]. rewrite !vsum_cons, <- IH, dot_vscale_r. ring. }
  assert (FU' : Forall (fun u => length u = m) U). { apply Forall_forall. intros u Iu. apply In_nth with (d := []) in Iu. destruct Iu as [k [Hk <-]]. rewrite NU by lia. rewrite vscale_length. rewrite Forall_forall in FU. apply FU, nth_In. lia. }
  assert (Lp : length (map (fun a => a ^ 2) (as_pad m s0)) = length us) by (rewrite map_length, as_pad_len by auto; lia).
  assert (EIG : forall k, (k < m)%nat -> mv (spec m (map (fun a => a ^ 2) (as_pad m s0)) us) (nth k us []) = vscale (vget (as_pad m s0) k ^ 2) (nth k us [])).
  { intros k Hk. rewrite mv_spec by auto. assert (Luk : length (nth k us []) = m) by (rewrite Forall_forall in FU; apply FU, nth_In; lia).
    apply vec_ext; [rewrite vscale_length, Luk; apply lincomb_length|]; auto. 
    - intros i Hi. rewrite lincomb_length in Hi by auto. rewrite MatLib.lincomb_get by (auto; rewrite vmul_length; rewrite ?mv_length; auto).
      rewrite (rsum_single _ k).
      + rewrite vmul_get by (rewrite mv_length; auto). rewrite mv_get by lia. rewrite (OR k k) by lia. rewrite Nat.eqb_refl. rewrite vscale_get. rewrite vget_sq by (rewrite as_pad_len; auto). ring.
      + lia.
      + intros a Ha Na. rewrite vmul_get by (rewrite mv_length; auto). rewrite mv_get by lia. rewrite (OR a k) by lia. destruct (Nat.eqb_spec a k); [lia|ring]. }
  assert (N1 : forall k, (k < m)%nat -> norm2 (nth k us []) = 1). { intros k Hk. unfold norm2, norm2sq. rewrite (OR k k) by lia. rewrite Nat.eqb_refl. apply sqrt_1. }
  assert (SG : forall x, sgn x * x = Rabs x) by apply sgn_mul.
  split; auto. split; auto. split; [|split].
  - intros k Hk. rewrite NU by auto. set (ms := mean_slope (nth k us []) grads). split; [|split; [|split]].
    + rewrite mv_vscale, EIG by auto. clear. generalize (nth k us []). intros x. unfold vscale. rewrite !map_map. apply map_ext. intros a. ring.
    + rewrite MS. fold ms. rewrite SG. apply Rabs_pos.
    + destruct (Req_dec ms 0) as [Z|Z].
      * right. rewrite Z, sgn_0. assert (Luk : length (nth k us []) = m) by (rewrite Forall_forall in FU; apply FU, nth_In; lia). rewrite <- Luk. apply vscale_0.
      * left. rewrite norm2_vscale, N1 by auto. destruct (sgn_pm ms Z) as [->| ->]; [rewrite Rabs_R1|rewrite Rabs_left by lra]; lra.
    + rewrite MS. fold ms. rewrite norm2_vscale, N1 by auto. destruct (Req_dec ms 0) as [Z|Z].
      * rewrite Z, sgn_0, Rabs_R0. split; intros; lra.
      * destruct (sgn_pm ms Z) as [->| ->]; [rewrite Rabs_R1|rewrite Rabs_left by lra]; split; intros; lra.
  - intros j k Hj Hk N. rewrite !NU by auto. rewrite dot_vscale_l, dot_vscale_r, (OR j k) by lia. destruct (Nat.eqb_spec j k); [lia|ring].
  - intros NZ. assert (PM : forall k, (k < m)%nat -> sgn (mean_slope (nth k us []) grads) * sgn (mean_slope (nth k us []) grads) = 1).
    { intros k Hk. assert (Z : mean_slope (nth k us []) grads <> 0). { intros Z. apply (NZ k Hk). rewrite NU, MS, Z by auto. ring. } destruct (sgn_pm _ Z) as [->| ->]; ring. }
    split.
    + split; auto. split; auto. intros a b Ha Hb. rewrite LU' in Ha, Hb. rewrite !NU by auto. rewrite dot_vscale_l, dot_vscale_r, (OR a b) by lia. destruct (Nat.eqb_spec a b); [subst b|ring]. rewrite Rmult_1_r. apply PM; auto.
    + 
      assert (G : forall us U ws, length U = length us -> length ws = length us -> Forall (fun u => length u = m) us -> forall c, (forall k, (k < length us)%nat -> nth k U [] = vscale (c k) (nth k us []) /\ c k * c k = 1) -> spec m ws us = spec m ws U).
      { clear. induction us as [|u us IH]; intros [|u' U] [|a ws] L1 L2 F c H; simpl in *; try lia; auto. destruct (H 0%nat ltac:(lia)) as [E0 Q0]. simpl in E0. inversion F; subst. f_equal.
        - unfold outer. clear - Q0. f_equal. clear - Q0. assert (G2 : forall l, map (fun x => vscale x u) l = map (fun x => vscale x (vscale (c 0%nat) u)) (vscale (c 0%nat) l)); [|apply G2].
          induction l as [|b l IH]; auto. simpl. rewrite IH. f_equal. unfold vscale. rewrite map_map. apply map_ext. intros z. replace (c 0%nat * b * (c 0%nat * z)) with (c 0%nat * c 0%nat * (b * z)) by ring. rewrite Q0. ring.
        - apply IH with (c := fun k => c (S k)); auto. intros k Hk. apply (H (S k)). lia. }
      apply G with (c := fun k => sgn (mean_slope (nth k us []) grads)); auto; try lia. intros k Hk. split; [apply NU; lia|apply PM; lia].
Qed.

Lemma bessel : forall m vs u, Forall (fun v => length v = m) vs -> orthonormal vs -> length u = m ->
  rsum (length vs) (fun j => dot (nth j vs []) u * dot (nth j vs []) u) <= dot u u.
Proof.
  intros m vs u FV OR Lu. pose proof (norm2sq_nonneg (vsub u (lincomb m vs (mv vs u)))) as P. unfold norm2sq in P.
  assert (LL : length (lincomb m vs (mv vs u)) = m) by (apply lincomb_length; auto).
  rewrite dot_vsub_l, !dot_vsub_r in P by lia.
  rewrite (dot_lincomb_r m) in P by (auto; apply mv_length). rewrite (dot_lincomb_l m) in P by (auto; apply mv_length).
  rewrite (dot_lincomb2 m) in P by (auto; apply mv_length).
  rewrite (rsum_ext _ (fun k => vget (mv vs u) k * dot u (nth k vs [])) (fun j => dot (nth j vs []) u * dot (nth j vs []) u)) in P by (intros; rewrite mv_get, (dot_comm u) by auto; auto).
  rewrite (rsum_ext _ (fun k => vget (mv vs u) k * dot (nth k vs []) u) (fun j => dot (nth j vs []) u * dot (nth j vs []) u)) in P by (intros; rewrite mv_get by auto; auto).
  replace (dot (mv vs u) (mv vs u)) with (rsum (length vs) (fun j => dot (nth j vs []) u * dot (nth j vs []) u)) in P. 2:{ rewrite dot_rsum by auto. rewrite mv_length. apply rsum_ext. intros. rewrite mv_get by auto. auto. }
  lra.
Qed.
Lemma rsum_threshold : forall m n (a p : nat -> R), (n <= m)%nat -> (forall k, (k < m)%nat -> 0 <= a k) -> (forall i j, (i <= j < m)%nat -> a j <= a i) ->
  (forall k, (k < m)%nat -> 0 <= p k <= 1) -> rsum m p = INR n -> rsum m (fun k => a k * p k) <= rsum n a.
Proof.
  intros m n a p Hn Ha Hd Hp Hs. destruct (Nat.eq_dec n m) as [->|N].
  - apply rsum_le. intros i Hi. pose proof (Ha i Hi). pose proof (Hp i Hi). nra.
  - assert (E1 : rsum m (fun k => a k * p k) = rsum n (fun k => a k * p k) + rsum (m - n) (fun i => a (n + i)%nat * p (n + i)%nat)) by (rewrite <- rsum_app; f_equal; lia).
    assert (E2 : rsum m p = rsum n p + rsum (m - n) (fun i => p (n + i)%nat)) by (rewrite <- rsum_app; f_equal; lia).
    assert (A : rsum (m - n) (fun i => a (n + i)%nat * p (n + i)%nat) <= a n * rsum (m - n) (fun i => p (n + i)%nat)).
    { rewrite <- rsum_scal_l. apply rsum_le. intros i Hi. apply Rmult_le_compat_r; [apply Hp; lia|]. apply Hd. lia. }
    assert (B : a n * rsum n (fun k => 1 - p k) <= rsum n (fun k => a k * (1 - p k))).
    { rewrite <- rsum_scal_l. apply rsum_le. intros i Hi. pose proof (Hp i ltac:(lia)). apply Rmult_le_compat_r; [lra|]. apply Hd. lia. }
    rewrite (rsum_ext n (fun k => a k * (1 - p k)) (fun k => a k - a k * p k)) in B by (intros; ring). rewrite !rsum_minus, rsum_const in B.
    rewrite E1. rewrite E2 in Hs. assert (rsum (m - n) (fun i => p (n + i)%nat) = INR n - rsum n p) as Q by lra. rewrite Q in A. nra.
Qed.
(** among all n-dimensional subspaces the first n singular vectors carry the most of the average squared gradient (trace of V^T C V) *)
Theorem as_optimal : forall m w us (s : vec) n vs, onb m us -> length w = m -> (forall k, (k < m)%nat -> 0 <= vget w k) -> (forall i j, (i <= j < m)%nat -> vget w j <= vget w i) ->
  length vs = n -> (n <= m)%nat -> Forall (fun v => length v = m) vs -> orthonormal vs ->
  rsum n (fun j => quad (spec m w us) (nth j vs [])) <= rsum n (vget w) /\ rsum n (fun j => quad (spec m w us) (nth j us [])) = rsum n (vget w).
Proof.
  intros m w us s n vs OU Lw Pw Dw Lv Hn FV OV. pose proof OU as [LU [FU OR]]. split.
  - rewrite (rsum_ext n _ (fun j => rsum m (fun k => vget w k * (dot (nth k us []) (nth j vs []) * dot (nth k us []) (nth j vs []))))) by (intros; apply quad_spec_onb; auto).
    rewrite rsum_swap. rewrite (rsum_ext m _ (fun k => vget w k * rsum n (fun j => dot (nth j vs []) (nth k us []) * dot (nth j vs []) (nth k us [])))).
    2:{ intros k Hk. rewrite rsum_scal_l. f_equal. apply rsum_ext. intros j Hj. rewrite (dot_comm (nth j vs [])). auto. }
    apply rsum_threshold; auto.
    + intros k Hk. split; [apply rsum_nonneg; intros; apply Rle_0_sqr|]. rewrite <- Lv. eapply Rle_trans; [apply (bessel m); auto; apply (onb_row m); auto|]. rewrite (OR k k) by lia. rewrite Nat.eqb_refl. lra.
    + rewrite rsum_swap. rewrite (rsum_ext n _ (fun _ => 1)). rewrite rsum_const; ring.
      intros j Hj. rewrite (rsum_ext m _ (fun k => dot (nth k us []) (nth j vs []) * dot (nth k us []) (nth j vs []))) by (intros; rewrite (dot_comm (nth j vs [])); auto).
      assert (length (nth j vs []) = m) by (rewrite Forall_forall in FV; apply FV, nth_In; lia).
      rewrite <- (parseval m us) by auto. unfold norm2sq. rewrite (OV j j) by lia. rewrite Nat.eqb_refl. auto.
  - apply rsum_ext. intros j Hj. rewrite quad_spec_onb by auto. rewrite (rsum_single m j).
    + rewrite (OR j j) by lia. rewrite Nat.eqb_refl. ring.
    + lia.
    + intros k Hk Nk. rewrite (OR k j) by lia. destruct (Nat.eqb_spec k j); [lia|ring].
Qed.
(** the same for the result of fit *)
Theorem as_fit_optimal : forall svd m grads wo U s C n vs,
  Forall (fun g => length g = m) grads -> (forall v, wo = Some v -> length v = length grads /\ Forall (fun a => 0 <= a) v) ->
  (exists vs, svd_full m (as_cols (as_weights grads wo) grads) (fst (svd (as_cols (as_weights grads wo) grads))) (snd (svd (as_cols (as_weights grads wo) grads))) vs) ->
  as_fit svd m grads wo = (U, s, C) ->
  length vs = n -> (n <= m)%nat -> Forall (fun v => length v = m) vs -> orthonormal vs ->
  rsum n (fun j => quad C (nth j vs [])) <= rsum n (fun k => vget s k ^ 2) /\
  ((forall k, (k < n)%nat -> mean_slope (nth k U []) grads <> 0) -> rsum n (fun j => quad C (nth j U [])) = rsum n (fun k => vget s k ^ 2)).
Proof.
  intros svd m grads wo U s C n vs FG HW SV E Lv Hn FV OV.
  destruct (as_C_correct svd m grads wo U s C FG HW SV E) as [Ls [SQ [_ [Ps Ds]]]].
  destruct (as_U_partial svd m grads wo U s C FG HW SV E) as [LU [FU [EIG _]]].
  split.
  - destruct SV as [ws SV]. unfold as_fit in E. destruct (svd (as_cols (as_weights grads wo) grads)) as [us s0] eqn:ES. simpl fst in SV. simpl snd in SV. injection E as <- <- <-.
    pose proof SV as [OU _]. pose proof (as_optimal m (map (fun a => a ^ 2) (as_pad m s0)) us s0 n vs OU) as OP.
    assert (G : forall k, (k < m)%nat -> vget (map (fun a => a ^ 2) (as_pad m s0)) k = vget (as_pad m s0) k ^ 2) by (intros; apply vget_sq; lia).
    destruct OP as [OP _]; auto; [rewrite map_length; auto| | |].
    + intros k Hk. rewrite G by auto. apply pow2_ge_0.
    + intros i j Hij. rewrite !G by lia. apply pow_incr. split; [apply Ps; lia|apply Ds; lia].
    + eapply Rle_trans; [apply OP|]. right. apply rsum_ext. intros k Hk. apply G. lia.
  - intros NZ. apply rsum_ext. intros k Hk. destruct (EIG k ltac:(lia)) as [E1 [_ [_ N1]]]. unfold quad. rewrite E1, dot_vscale_r.
    assert (norm2 (nth k U []) = 1) by (apply N1; auto). pose proof (norm2_sq (nth k U [])) as Q. rewrite H in Q. unfold norm2sq in Q. rewrite <- Q. ring.
Qed.

(** every direction without gradient information (s_k = 0) is replaced by the zero vector *)
Theorem as_zero_columns : forall svd m grads wo U s C,
  Forall (fun g => length g = m) grads -> (forall v, wo = Some v -> length v = length grads /\ Forall (fun a => 0 < a) v) ->
  (exists vs, svd_full m (as_cols (as_weights grads wo) grads) (fst (svd (as_cols (as_weights grads wo) grads))) (snd (svd (as_cols (as_weights grads wo) grads))) vs) ->
  as_fit svd m grads wo = (U, s, C) ->
  (forall k, (k < m)%nat -> vget s k = 0 -> nth k U [] = vzero m) /\ ((length grads < m)%nat -> nth (m - 1) U [] = vzero m /\ ~ orthonormal U).
Proof.
  intros svd m grads wo U s C FG HW [vs SV] E. unfold as_fit in E. destruct (svd (as_cols (as_weights grads wo) grads)) as [us s0] eqn:ES. simpl fst in SV. simpl snd in SV.
  injection E as <- <- <-. set (w := as_weights grads wo) in *.
  assert (Lw : length w = length grads) by (apply (as_weights_len grads wo w); auto; intros; apply HW; auto).
  assert (Pw : forall l, (l < length grads)%nat -> 0 < vget w l).
  { intros l Hl. unfold w, as_weights. destruct wo as [v|].
    - destruct (HW v eq_refl) as [LL F]. rewrite Forall_forall in F. apply F. apply nth_In. lia.
    - unfold vget. rewrite nth_indep with (d' := 1 / INR (length grads)) by (rewrite repeat_length; auto). rewrite nth_repeat. apply Rmult_lt_0_compat; [lra|]. apply Rinv_0_lt_compat, lt_0_INR. lia. }
  assert (Pw' : Forall (fun a => 0 <= a) w). { apply Forall_forall. intros a Ia. apply In_nth with (d := 0) in Ia. destruct Ia as [l [Hl <-]]. left. apply Pw. lia. }
  destruct (SVlen m w grads us s0 vs Lw SV) as [S1 S2]. pose proof SV as [[LU [FU OR]] _].
  assert (Z : forall k, (k < m)%nat -> vget (as_pad m s0) k = 0 -> nth k (scale_cols (signs_grads us grads) us) [] = vzero m).
  { intros k Hk Zk. rewrite sg_cols_nth by lia. rewrite mean_zero.
    - rewrite sgn_0, vscale_0. f_equal. rewrite Forall_forall in FU; apply FU, nth_In; lia.
    - intros g Ig. apply In_nth with (d := []) in Ig. destruct Ig as [l [Hl <-]].
      pose proof (diag_avg m w grads us s0 vs Lw Pw' SV k k Hk Hk) as D. rewrite Nat.eqb_refl, Zk in D. replace (0 ^ 2) with 0 in D by ring.
      pose proof (fun P => rsum_zero_inv _ _ P D l Hl) as Q. simpl in Q. rewrite dot_comm.
      assert (P : forall i, (i < length grads)%nat -> 0 <= vget w i * (dot (nth k us []) (nth i grads []) * dot (nth k us []) (nth i grads []))).
      { intros i Hi. apply Rmult_le_pos; [left; apply Pw; auto|apply Rle_0_sqr]. }
      specialize (Q P). pose proof (Pw l Hl). apply Rmult_integral in Q. destruct Q as [Q|Q]; [lra|]. apply Rmult_integral in Q. tauto. }
  split; auto. intros HN. assert (m0 : (m - 1 < m)%nat) by lia.
  assert (Zm : vget (as_pad m s0) (m - 1) = 0). { apply as_pad_over. pose proof SV as [_ [_ [Ls _]]]. rewrite as_cols_len in Ls by auto. lia. }
  split; [apply Z; auto|]. intros O. specialize (O (m - 1)%nat (m - 1)%nat). rewrite sg_cols_len, LU in O. specialize (O m0 m0). rewrite Nat.eqb_refl in O. rewrite Z in O by auto. rewrite dot_zero_l in O. lra.
Qed.

(** gradients 1 and -1 in dimension one: the average slope along the singular vector is 0 and np.sign(0) erases it *)
Definition as_r : R := sqrt (1 / INR 2).
Lemma as_r2 : as_r * as_r = / 2.
Proof. unfold as_r. rewrite sqrt_sqrt; simpl; lra. Qed.
Lemma as_case_svd : svd_full 1 (as_cols (as_weights [[1]; [-1]] None) [[1]; [-1]]) [[1]] [1] [[as_r; - as_r]; [as_r; as_r]].
Proof.
  pose proof as_r2 as R2. unfold as_cols, as_weights. cbn [length repeat zipw]. fold as_r. unfold zipw. cbn [combine map length fst snd].
  unfold svd_full. split; [|split; [|split; [|split; [|split]]]].
  - split; [auto|split; [repeat constructor|]]. intros [|i] [|j] Hi Hj; cbn [length] in *; try lia. cbn [nth Nat.eqb]. rewrite !dot_cons, dot_nil_l. ring.
  - split; [auto|split; [repeat constructor|]]. intros [|[|i]] [|[|j]] Hi Hj; cbn [length] in *; try lia; cbn [nth Nat.eqb]; rewrite !dot_cons, dot_nil_l; lra.
  - auto.
  - repeat constructor; lra.
  - intros [|i] [|j] H; cbn [length] in *; try lia. lra.
  - intros [|[|c]] H; cbn [length] in *; try lia; simpl; unfold vmul, vscale, vadd, zipw, vget; simpl; f_equal; try lra.
Qed.
Theorem as_sign_refuted : exists svd grads U s C,
  (exists vs, svd_full 1 (as_cols (as_weights grads None) grads) (fst (svd (as_cols (as_weights grads None) grads))) (snd (svd (as_cols (as_weights grads None) grads))) vs) /\
  as_fit svd 1 grads None = (U, s, C) /\ vget s 0 = 1 /\ mget C 0 0 = 1 /\ U = [[0]].
Proof.
  exists (fun _ => ([[1]], [1])), [[1]; [-1]]. eexists _, _, _. split; [exists [[as_r; - as_r]; [as_r; as_r]]; apply as_case_svd|].
  split; [reflexivity|]. split; [reflexivity|]. split.
  - unfold spec, mget, vget. simpl. unfold madd, mscale, outer, mzero, vget. simpl. lra.
  - unfold scale_cols, signs_grads. simpl. unfold vscale, mean_slope. simpl.
    match goal with |- [[sgn ?e * 1]] = _ => replace e with 0 by (rewrite !dot_cons, !dot_nil_l; field) end. rewrite sgn_0. repeat f_equal. ring.
Qed.
(** one gradient (3, 4) in the plane: s = (5, 0), C = g g^T, the second column of U is zero *)
Example as_few_case : exists svd, (exists vs, svd_full 2 (as_cols (as_weights [[3; 4]] None) [[3; 4]]) (fst (svd (as_cols (as_weights [[3; 4]] None) [[3; 4]]))) (snd (svd (as_cols (as_weights [[3; 4]] None) [[3; 4]]))) vs) /\
  Forall (fun g => length g = 2%nat) [[3; 4]] /\ (length [[3; 4]] < 2)%nat.
Proof.
  exists (fun _ => ([[3 / 5; 4 / 5]; [-4 / 5; 3 / 5]], [5])). split; [|split; [repeat constructor|simpl; lia]]. exists [[1]].
  unfold as_cols, as_weights. cbn [length repeat zipw]. unfold zipw. cbn [combine map length fst snd]. replace (1 / INR 1) with 1 by (simpl; lra). rewrite sqrt_1.
  unfold svd_full. split; [|split; [|split; [|split; [|split]]]].
  - split; [auto|split; [repeat constructor|]]. intros [|[|i]] [|[|j]] Hi Hj; cbn [length] in *; try lia; cbn [nth Nat.eqb]; rewrite !dot_cons, dot_nil_l; lra.
  - split; [auto|split; [repeat constructor|]]. intros [|i] [|j] Hi Hj; cbn [length] in *; try lia. cbn [nth Nat.eqb]. rewrite !dot_cons, dot_nil_l. ring.
  - auto.
  - repeat constructor; lra.
  - intros [|i] [|j] H; cbn [length] in *; try lia. lra.
  - intros [|c] H; cbn [length] in *; try lia; simpl; unfold vmul, vscale, vadd, zipw, vget; simpl; (f_equal; [lra|]; f_equal; lra).
Qed.
(** two gradients (2, 0), (0, 1) with weights 1: every hypothesis of as_U_partial, all slopes nonzero *)
Example as_U_case : svd_full 2 (as_cols (as_weights [[2; 0]; [0; 1]] (Some [1; 1])) [[2; 0]; [0; 1]]) [[1; 0]; [0; 1]] [2; 1] [[1; 0]; [0; 1]] /\
  mean_slope [1; 0] [[2; 0]; [0; 1]] <> 0 /\ mean_slope [0; 1] [[2; 0]; [0; 1]] <> 0.
Proof.
  split.
  - unfold as_cols, as_weights. unfold zipw. cbn [combine map length fst snd]. rewrite sqrt_1.
    unfold svd_full. split; [|split; [|split; [|split; [|split]]]].
    + split; [auto|split; [repeat constructor|]]. intros [|[|i]] [|[|j]] Hi Hj; cbn [length] in *; try lia; cbn [nth Nat.eqb]; rewrite !dot_cons, dot_nil_l; lra.
    + split; [auto|split; [repeat constructor|]]. intros [|[|i]] [|[|j]] Hi Hj; cbn [length] in *; try lia; cbn [nth Nat.eqb]; rewrite !dot_cons, dot_nil_l; lra.
    + auto.
    + repeat constructor; lra.
    + intros [|[|i]] [|[|j]] H; cbn [length] in *; try lia; unfold vget; simpl; lra.
    + intros [|[|c]] H; cbn [length] in *; try lia; simpl; unfold vmul, vscale, vadd, zipw, vget; simpl; (f_equal; [lra|]; f_equal; lra).
  - unfold mean_slope. cbn [map vsum length]. rewrite !dot_cons, !dot_nil_l. simpl. split; lra.
Qed.

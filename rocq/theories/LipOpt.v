(** Minimisers of the semidefinite program of LipschitzMatrix: psdr/lipschitz.py 60-75 (documentation), 102-179 (fit), 239-351 (program). *)
Require Import Reals List Bool Arith Lia Lra Psatz.
From Verif Require Import RVec Num Sums DomMoreModel MatLib SpecProofs LipModel LipProofs LipConstProofs ProjProofs ProjGradProofs GrassLib LipFitProofs SdpProofs.
Import ListNotations.
Local Open Scope R_scope.

(** a minimiser of the documented program: feasible, and of least trace among the feasible matrices *)
Definition best (m : nat) (X : mat) (fX : vec) (grads : mat) (eps : R) (H : mat) : Prop :=
  sdp_H m X fX grads eps H /\ forall G, sdp_H m X fX grads eps G -> trace H <= trace G.

(** ** symmetric matrices and their quadratic forms *)
Lemma bil_rsum : forall m H x y, sq m H -> length x = m -> length y = m -> dot x (mv H y) = rsum m (fun i => rsum m (fun j => vget x i * mget H i j * vget y j)).
Proof.
  intros m H x y [LH FH] Hx Hy. rewrite dot_rsum by (rewrite mv_length; lia). rewrite Hx. apply rsum_ext. intros i Hi. rewrite mv_get by lia.
  assert (LR : length (nth i H []) = m) by (apply (sq_row m); [split|]; auto). rewrite dot_rsum by lia. rewrite LR, <- rsum_scal_l. apply rsum_ext. intros j Hj. unfold mget. ring.
Qed.
Lemma bil_sym : forall m H x y, sq m H -> msym m H -> length x = m -> length y = m -> dot x (mv H y) = dot y (mv H x).
Proof.
  intros m H x y SH MH Hx Hy. rewrite !(bil_rsum m) by auto. rewrite rsum_swap. apply rsum_ext. intros i Hi. apply rsum_ext. intros j Hj. rewrite (MH j i) by auto. ring.
Qed.
Lemma quad_sub : forall m H x c v, sq m H -> msym m H -> length x = m -> length v = m ->
  quad H (vsub x (vscale c v)) = quad H x - 2 * c * dot x (mv H v) + c * c * quad H v.
Proof.
  intros m H x c v SH MH Hx Hv. unfold quad. assert (LH : length H = m) by apply SH. rewrite mv_vsub by (rewrite vscale_length; lia). rewrite mv_vscale.
  rewrite dot_vsub_l by (rewrite vscale_length; lia). rewrite !dot_vsub_r by (rewrite !vscale_length, !mv_length; auto). rewrite !dot_vscale_r, !dot_vscale_l. rewrite (bil_sym m H v x) by auto. ring.
Qed.
Lemma quad_add : forall m H x v, sq m H -> msym m H -> length x = m -> length v = m -> quad H (vadd x v) = quad H x + 2 * dot x (mv H v) + quad H v.
Proof.
  intros m H x v SH MH Hx Hv. unfold quad. assert (LH : length H = m) by apply SH. rewrite mv_vadd by lia.
  rewrite dot_vadd_l by lia. rewrite !dot_vadd_r by (rewrite !mv_length; auto). rewrite (bil_sym m H v x) by auto. ring.
Qed.
Lemma unitv_len : forall m i, length (unitv m i) = m.
Proof. intros. unfold unitv. rewrite map_length, seq_length. auto. Qed.
Lemma unitv_get : forall m i j, (j < m)%nat -> vget (unitv m i) j = if Nat.eqb j i then 1 else 0.
Proof. intros m i j Hj. unfold unitv. rewrite vget_map_seq by auto. auto. Qed.
Lemma bil_unit : forall m H i j, sq m H -> (i < m)%nat -> (j < m)%nat -> dot (unitv m i) (mv H (unitv m j)) = mget H i j.
Proof.
  intros m H i j SH Hi Hj. rewrite (bil_rsum m) by (auto; apply unitv_len). rewrite (rsum_single m i); auto.
  - rewrite (rsum_single m j); auto.
    + rewrite !unitv_get by auto. rewrite !Nat.eqb_refl. ring.
    + intros k Hk NK. rewrite (unitv_get m j k) by auto. destruct (Nat.eqb_spec k j); [contradiction|ring].
  - intros k Hk NK. apply rsum_zero. intros l Hl. rewrite (unitv_get m i k) by auto. destruct (Nat.eqb_spec k i); [contradiction|ring].
Qed.
(** equal quadratic forms, equal matrices *)
Lemma quad_ext : forall m A B, sq m A -> sq m B -> msym m A -> msym m B -> (forall x, length x = m -> quad A x = quad B x) -> A = B.
Proof.
  intros m A B SA SB MA MB E. apply (mat_ext m); auto. intros i j Hi Hj. pose proof (unitv_len m i) as Li. pose proof (unitv_len m j) as Lj.
  pose proof (E (vadd (unitv m i) (unitv m j)) ltac:(rewrite vadd_length; lia)) as Q. rewrite !(quad_add m) in Q by auto. rewrite (E _ Li), (E _ Lj) in Q.
  rewrite <- (bil_unit m A), <- (bil_unit m B) by auto. lra.
Qed.
Lemma trace_quads : forall m H, sq m H -> trace H = rsum m (fun i => quad H (unitv m i)).
Proof. intros m H SH. rewrite (trace_sq m) by auto. apply rsum_ext. intros i Hi. unfold quad. rewrite bil_unit by auto. auto. Qed.
Lemma trace_psd : forall m H, sq m H -> psd m H -> 0 <= trace H.
Proof. intros m H SH P. rewrite (trace_quads m) by auto. apply rsum_nonneg. intros i Hi. apply P, unitv_len. Qed.
Lemma outer_sq2 : forall m p q, length p = m -> length q = m -> sq m (outer p q).
Proof. intros m p q Lp Lq. split; [unfold outer; rewrite map_length; auto|]. apply Forall_forall. intros r Hr. unfold outer in Hr. apply in_map_iff in Hr. destruct Hr as [a [<- _]]. rewrite vscale_length; auto. Qed.
Lemma quad_outer2 : forall p q x, quad (outer p q) x = dot p x * dot q x.
Proof. intros. unfold quad. rewrite mv_outer, dot_vscale_r, (dot_comm x p). ring. Qed.
Lemma trace_msub : forall m A B, sq m A -> sq m B -> trace (msub A B) = trace A - trace B.
Proof.
  intros m A B SA SB. rewrite !(trace_sq m) by (auto; apply msub_sq; auto). rewrite <- rsum_minus. apply rsum_ext. intros i Hi. apply (mget_msub m); auto.
Qed.
Lemma trace_outer2 : forall p q, length p = length q -> trace (outer p q) = dot p q.
Proof.
  intros p q L. rewrite (trace_sq (length p)) by (apply outer_sq2; auto). rewrite dot_rsum by auto. apply rsum_ext. intros i Hi. apply mget_outer; auto.
Qed.

(** ** P H P for the projection P = I - v v^T, |v| = 1 *)
Definition defl (H : mat) (v : vec) : mat :=
  madd (msub (msub H (outer v (mv H v))) (outer (mv H v) v)) (mscale (quad H v) (outer v v)).
Section Defl.
Variables (m : nat) (H : mat) (v : vec).
Hypothesis SH : sq m H.
Hypothesis MH : msym m H.
Hypothesis LV : length v = m.
Let w := mv H v.
Lemma defl_lw : length w = m. Proof. unfold w. rewrite mv_length. apply SH. Qed.
Lemma defl_sq : sq m (defl H v).
Proof. pose proof defl_lw. unfold w in *. unfold defl. apply madd_sq; [|apply mscale_sq, outer_sq; auto]. apply msub_sq; [apply msub_sq; auto|]; apply outer_sq2; auto. Qed.
Lemma defl_get : forall i j, (i < m)%nat -> (j < m)%nat -> mget (defl H v) i j = mget H i j - vget v i * vget w j - vget w i * vget v j + quad H v * (vget v i * vget v j).
Proof.
  intros i j Hi Hj. pose proof defl_lw as LW. unfold defl. fold w. rewrite (mget_madd m); auto; [|apply msub_sq; [apply msub_sq; auto; apply outer_sq2; auto|apply outer_sq2; auto]|apply mscale_sq, outer_sq; auto].
  rewrite (mget_msub m); auto; [|apply msub_sq; auto; apply outer_sq2; auto|apply outer_sq2; auto]. rewrite (mget_msub m); auto; [|apply outer_sq2; auto]. rewrite mget_mscale, !mget_outer by lia. ring.
Qed.
Lemma defl_sym : msym m (defl H v).
Proof. intros i j Hi Hj. rewrite !defl_get by auto. rewrite (MH i j) by auto. ring. Qed.
Lemma defl_quad : norm2sq v = 1 -> forall x, length x = m -> quad (defl H v) x = quad H (vsub x (vscale (dot v x) v)).
Proof.
  intros _ x Hx. pose proof defl_lw as LW. rewrite (quad_sub m) by auto. unfold defl. fold w. rewrite (quad_madd m); [|apply msub_sq; [apply msub_sq; auto; apply outer_sq2; auto|apply outer_sq2; auto]|apply mscale_sq, outer_sq; auto].
  rewrite (quad_msub m); [|apply msub_sq; auto; apply outer_sq2; auto|apply outer_sq2; auto]. rewrite (quad_msub m); [|auto|apply outer_sq2; auto]. rewrite quad_mscale, quad_outer, !quad_outer2. rewrite (dot_comm w x). ring.
Qed.
Lemma defl_trace : norm2sq v = 1 -> trace (defl H v) = trace H - quad H v.
Proof.
  intros N. pose proof defl_lw as LW. unfold defl. fold w. rewrite (trace_madd m); [|apply msub_sq; [apply msub_sq; auto; apply outer_sq2; auto|apply outer_sq2; auto]|apply mscale_sq, outer_sq; auto].
  rewrite (trace_msub m); [|apply msub_sq; auto; apply outer_sq2; auto|apply outer_sq2; auto]. rewrite (trace_msub m); [|auto|apply outer_sq2; auto]. rewrite (trace_mscale m) by (apply outer_sq; auto). rewrite trace_outer, !trace_outer2 by lia.
  unfold norm2sq in N. rewrite N. rewrite (dot_comm w v). unfold quad. fold w. ring.
Qed.
Lemma defl_psd : norm2sq v = 1 -> psd m H -> psd m (defl H v).
Proof. intros N P x Hx. rewrite defl_quad by auto. apply P. rewrite vsub_length; rewrite ?vscale_length; lia. Qed.
End Defl.

(** ** positive semidefinite forms *)
Lemma psd_quad_trace1 : forall m H u, sq m H -> msym m H -> psd m H -> length u = m -> norm2sq u = 1 -> quad H u <= trace H.
Proof. intros m H u SH MH P L N. pose proof (defl_trace m H u SH L N) as T. pose proof (trace_psd m _ (defl_sq m H u SH L) (defl_psd m H u SH MH L N P)). lra. Qed.
Lemma norm2sq_vscale : forall c x, norm2sq (vscale c x) = c * c * norm2sq x.
Proof. intros. unfold norm2sq. rewrite dot_vscale_l, dot_vscale_r. ring. Qed.
Lemma quad_vscale : forall H c x, quad H (vscale c x) = c * c * quad H x.
Proof. intros. unfold quad. rewrite mv_vscale, dot_vscale_l, dot_vscale_r. ring. Qed.
Lemma zero_vec : forall m x, length x = m -> norm2sq x = 0 -> x = vzero m.
Proof. intros m x L N. apply norm2sq_zero in N. subst m. induction N as [|a x Ha _ IH]; auto. cbn. rewrite Ha. f_equal. auto. Qed.
Lemma quad_vzero : forall H m, quad H (vzero m) = 0.
Proof. intros. unfold quad. apply dot_zero_l. Qed.
Lemma psd_quad_trace : forall m H p, sq m H -> msym m H -> psd m H -> length p = m -> quad H p <= trace H * norm2sq p.
Proof.
  intros m H p SH MH P L. pose proof (norm2sq_nonneg p) as N0. destruct (Req_EM_T (norm2sq p) 0) as [Z|NZ].
  - rewrite (zero_vec m p L Z), quad_vzero. rewrite <- (zero_vec m p L Z), Z. lra.
  - assert (NP : 0 < norm2 p). { pose proof (norm2_sq p). pose proof (norm2_nonneg p). destruct (Req_EM_T (norm2 p) 0) as [E|]; [rewrite E in *; lra|lra]. }
    pose proof (psd_quad_trace1 m H (vscale (/ norm2 p) p) SH MH P ltac:(rewrite vscale_length; auto)) as Q. rewrite norm2sq_vscale, quad_vscale in Q. pose proof (norm2_sq p) as E2.
    assert (E : / norm2 p * / norm2 p * norm2sq p = 1) by (rewrite <- E2; field; lra). specialize (Q E).
    assert (E3 : quad H p = (/ norm2 p * / norm2 p * quad H p) * norm2sq p) by (rewrite <- E2; field; lra). rewrite E3. apply Rmult_le_compat_r; lra.
Qed.
(** a form that vanishes at v has v in its kernel *)
Lemma psd_kernel : forall m H v, sq m H -> msym m H -> psd m H -> length v = m -> quad H v = 0 -> mv H v = vzero m.
Proof.
  intros m H v SH MH P L Z. assert (LW : length (mv H v) = m) by (rewrite mv_length; apply SH). apply zero_vec; auto. set (w := mv H v) in *.
  pose proof (norm2sq_nonneg w) as N0. destruct (Req_EM_T (norm2sq w) 0) as [|NZ]; auto. exfalso. set (c := (quad H w + 1) / norm2sq w).
  pose proof (P (vsub w (vscale c v)) ltac:(rewrite vsub_length; rewrite ?vscale_length; lia)) as Q. rewrite (quad_sub m) in Q by auto. fold w in Q. change (dot w w) with (norm2sq w) in Q. rewrite Z in Q.
  assert (c * norm2sq w = quad H w + 1) by (unfold c; field; auto). pose proof (P w LW). nra.
Qed.
(** Bessel: the forms of orthonormal vectors add up to no more than the trace *)
Lemma psd_bessel : forall us m H, sq m H -> msym m H -> psd m H -> Forall (fun u => length u = m) us -> orthonormal us ->
  rsum (length us) (fun k => quad H (nth k us [])) <= trace H.
Proof.
  induction us as [|u us IH]; intros m H SH MH P F OR; [cbn; apply (trace_psd m); auto|]. inversion F as [|? ? Lu Fu]; subst. cbn [length]. rewrite rsum_S_first. cbn [nth].
  assert (N : norm2sq u = 1). { pose proof (OR 0%nat 0%nat ltac:(cbn; lia) ltac:(cbn; lia)) as E. cbn in E. exact E. }
  pose proof (defl_trace (length u) H u SH eq_refl N) as T.
  assert (OR' : orthonormal us). { intros a b Ha Hb. pose proof (OR (S a) (S b) ltac:(cbn; lia) ltac:(cbn; lia)) as E. cbn in E. exact E. }
  pose proof (IH _ (defl H u) (defl_sq _ H u SH eq_refl) (defl_sym _ H u SH MH eq_refl) (defl_psd _ H u SH MH eq_refl N P) Fu OR') as B.
  assert (E : rsum (length us) (fun k => quad (defl H u) (nth k us [])) = rsum (length us) (fun k => quad H (nth k us []))); [|lra].
  apply rsum_ext. intros k Hk. assert (Lk : length (nth k us []) = length u) by (rewrite Forall_forall in Fu; apply Fu, nth_In; auto). rewrite (defl_quad (length u)) by auto.
  pose proof (OR 0%nat (S k) ltac:(cbn; lia) ltac:(cbn; lia)) as E. cbn in E. rewrite E. f_equal. apply vec_ext; [rewrite vsub_length; rewrite ?vscale_length; lia|]. intros i Hi. rewrite vsub_get by (rewrite vscale_length; lia). rewrite vscale_get. ring.
Qed.

(** ** the program under changes of the data *)
Lemma sq_abs_le : forall a b c, 0 <= c -> Rmax (Rabs a - b) 0 ^ 2 <= c * c <-> Rabs a <= c + b.
Proof.
  intros a b c Hc. unfold Rmax. destruct (Rle_dec (Rabs a - b) 0); split; intro Q; try nra; lra.
Qed.
Lemma pair_scale : forall s f g e, 0 < s -> Rmax (Rabs (/ s * f - / s * g) - e / s) 0 = / s * Rmax (Rabs (f - g) - e) 0.
Proof.
  intros s f g e Hs. assert (Hi : 0 < / s) by (apply Rinv_0_lt_compat; auto). replace (/ s * f - / s * g) with (/ s * (f - g)) by ring. rewrite Rabs_mult, (Rabs_right (/ s)) by lra.
  unfold Rmax. destruct (Rle_dec (Rabs (f - g) - e) 0) as [A|A]; destruct (Rle_dec (/ s * Rabs (f - g) - e / s) 0) as [B|B]; unfold Rdiv in *; try nra.
Qed.
Lemma sdp_scale1 : forall m X fX grads eps s H, 0 < s -> sdp_H m X (vscale (/ s) fX) (map (vscale (/ s)) grads) (eps / s) H -> sdp_H m X fX grads eps (mscale (s ^ 2) H).
Proof.
  intros m X fX grads eps s H Hs [P [SH [MH [B1 B2]]]]. assert (Q : 0 < s * s) by nra. split; [|split; [|split; [|split]]].
  - intros x Hx. rewrite quad_mscale. specialize (P x Hx). nra.
  - apply mscale_sq; auto.
  - apply mscale_sym; auto.
  - intros i j Hij. specialize (B1 i j Hij). rewrite !vscale_get, pair_scale in B1 by auto. rewrite quad_mscale. set (t := Rmax _ 0) in *.
    replace (t ^ 2) with (s ^ 2 * (/ s * t) ^ 2) by (field; lra). apply Rmult_le_compat_l; [nra|auto].
  - intros g Hg x Hx. specialize (B2 _ (in_map _ _ _ Hg) x Hx). rewrite quad_outer, dot_vscale_l in B2. rewrite quad_outer, quad_mscale.
    replace (dot g x * dot g x) with (s ^ 2 * (/ s * dot g x * (/ s * dot g x))) by (field; lra). apply Rmult_le_compat_l; [nra|auto].
Qed.
Lemma map_vscale_inv : forall s (grads : mat), s <> 0 -> map (vscale (/ / s)) (map (vscale (/ s)) grads) = grads.
Proof. intros s grads Hs. rewrite map_map. rewrite <- (map_id grads) at 2. apply map_ext. intro g. apply vec_ext; [rewrite !vscale_length; auto|]. intros i Hi. rewrite !vscale_get. field. auto. Qed.
Lemma vscale_inv : forall s (f : vec), s <> 0 -> vscale (/ / s) (vscale (/ s) f) = f.
Proof. intros s f Hs. apply vec_ext; [rewrite !vscale_length; auto|]. intros i Hi. rewrite !vscale_get. field. auto. Qed.
Lemma sdp_scale2 : forall m X fX grads eps s H, 0 < s -> sdp_H m X fX grads eps H -> sdp_H m X (vscale (/ s) fX) (map (vscale (/ s)) grads) (eps / s) (mscale ((/ s) ^ 2) H).
Proof.
  intros m X fX grads eps s H Hs Q. apply sdp_scale1; [apply Rinv_0_lt_compat; auto|]. rewrite vscale_inv, map_vscale_inv by lra. replace (eps / s / / s) with eps by (field; lra). auto.
Qed.
Lemma mscale_mscale : forall m a b H, sq m H -> a * b = 1 -> mscale a (mscale b H) = H.
Proof. intros m a b H SH E. apply (mat_ext m); auto; [apply mscale_sq, mscale_sq; auto|]. intros i j Hi Hj. rewrite !mget_mscale, <- Rmult_assoc, E. ring. Qed.
(** the scaling of fit, lipschitz.py 141-155, 161, 176: H minimises on the scaled data iff scale^2 H minimises on the data *)
Theorem best_scale : forall m X fX grads eps s H, 0 < s -> sq m H ->
  (best m X (vscale (/ s) fX) (map (vscale (/ s)) grads) (eps / s) H <-> best m X fX grads eps (mscale (s ^ 2) H)).
Proof.
  intros m X fX grads eps s H Hs SH. assert (Q : 0 < s * s) by nra. split; intros [F B]; split.
  - apply sdp_scale1; auto.
  - intros G FG. pose proof (sdp_scale2 m X fX grads eps s G Hs FG) as FG'. specialize (B _ FG'). assert (SG : sq m G) by apply FG. rewrite (trace_mscale m) in * by auto.
    replace (trace G) with (s ^ 2 * ((/ s) ^ 2 * trace G)) by (field; lra). apply Rmult_le_compat_l; [nra|auto].
  - apply (sdp_scale2 m X fX grads eps s) in F; auto. rewrite (mscale_mscale m) in F; auto. field. lra.
  - intros G FG. pose proof (sdp_scale1 m X fX grads eps s G Hs FG) as FG'. specialize (B _ FG'). assert (SG : sq m G) by apply FG. rewrite !(trace_mscale m) in B by auto. nra.
Qed.
(** shifting the inputs by [c] and the values by [a] changes nothing *)
Theorem best_shift : forall m X fX grads eps c a H, length c = m -> Forall (dimP m) X -> length fX = length X ->
  (best m (map (vadd c) X) (map (Rplus a) fX) grads eps H <-> best m X fX grads eps H).
Proof.
  intros m X fX grads eps c a H Lc FX LF.
  assert (E : forall G, sdp_H m (map (vadd c) X) (map (Rplus a) fX) grads eps G <-> sdp_H m X fX grads eps G).
  { assert (EP : forall i j, (i < j < length X)%nat -> pair_p (map (vadd c) X) i j = pair_p X i j /\ vget (map (Rplus a) fX) i - vget (map (Rplus a) fX) j = vget fX i - vget fX j).
    { intros i j Hij. assert (Li : length (nth i X []) = m) by (rewrite Forall_forall in FX; apply FX, nth_In; lia). assert (Lj : length (nth j X []) = m) by (rewrite Forall_forall in FX; apply FX, nth_In; lia). split.
      - unfold pair_p. rewrite !(nth_indep (map (vadd c) X) [] (vadd c [])) by (rewrite map_length; lia). rewrite !map_nth. apply vec_ext; [rewrite !vsub_length; rewrite ?vadd_length; lia|]. intros k Hk. rewrite !vsub_get by (rewrite ?vadd_length; lia). rewrite !vadd_get by lia. ring.
      - unfold vget. rewrite !(nth_indep (map (Rplus a) fX) 0 (a + 0)) by (rewrite map_length; lia). rewrite !map_nth. ring. }
    intro G. unfold sdp_H, builder_ok. rewrite map_length. split; intros [P [SG [MG [B1 B2]]]]; (split; [auto|]); (split; [auto|]); (split; [auto|]); (split; [|auto]); intros i j Hij; specialize (B1 i j Hij); destruct (EP i j Hij) as [E1 E2]; rewrite E1, E2 in *; auto. }
  unfold best. rewrite E. split; intros [F B]; (split; [auto|]); intros G FG; apply B, E; auto.
Qed.
(** more samples, more gradients, smaller epsilon: fewer feasible matrices *)
Theorem best_monotone : forall m X fX grads eps X' fX' grads' eps' H H', length fX = length X -> eps' <= eps -> incl grads grads' ->
  best m X fX grads eps H -> best m (X ++ X') (fX ++ fX') grads' eps' H' -> trace H <= trace H'.
Proof.
  intros m X fX grads eps X' fX' grads' eps' H H' LF LE I [_ B] [[P [SH [MH [B1 B2]]]] _]. apply B. split; [auto|]. split; [auto|]. split; [auto|]. split.
  - intros i j Hij. specialize (B1 i j ltac:(rewrite app_length; lia)). unfold pair_p, vget in *. rewrite !app_nth1 in B1 by lia. eapply Rle_trans; [|exact B1]. set (d := Rabs _) in *.
    assert (Rmax (d - eps) 0 <= Rmax (d - eps') 0) by (unfold Rmax; destruct (Rle_dec _ _); destruct (Rle_dec _ _); lra). pose proof (Rmax_r (d - eps) 0). nra.
  - intros g Hg. apply B2, I; auto.
Qed.
(** directions in which the data never moved are in the kernel *)
Theorem best_kernel : forall m X fX grads eps H v, Forall (dimP m) X -> best m X fX grads eps H -> length v = m ->
  (forall i j, (i < j < length X)%nat -> eps < Rabs (vget fX i - vget fX j) -> dot v (vsub (nth i X []) (nth j X [])) = 0) ->
  (forall g, In g grads -> dot v g = 0) -> mv H v = vzero m.
Proof.
  intros m X fX grads eps H v FX [[P [SH [MH [B1 B2]]]] B] LV OX OG. apply psd_kernel; auto. pose proof (norm2sq_nonneg v) as N0. destruct (Req_EM_T (norm2sq v) 0) as [Z|NZ]; [rewrite (zero_vec m v LV Z); apply quad_vzero|].
  assert (NP : 0 < norm2 v). { pose proof (norm2_sq v). pose proof (norm2_nonneg v). destruct (Req_EM_T (norm2 v) 0) as [E|]; [rewrite E in *; lra|lra]. }
  set (u := vscale (/ norm2 v) v). assert (Lu : length u = m) by (unfold u; rewrite vscale_length; auto). pose proof (norm2_sq v) as E2.
  assert (Nu : norm2sq u = 1) by (unfold u; rewrite norm2sq_vscale, <- E2; field; lra).
  assert (OU : forall x, length x = m -> dot v x = 0 -> quad (defl H u) x = quad H x).
  { intros x Hx D. rewrite (defl_quad m) by auto. f_equal. unfold u at 1. rewrite dot_vscale_l, D. apply vec_ext; [rewrite vsub_length; rewrite ?vscale_length; lia|]. intros i Hi. rewrite vsub_get by (rewrite vscale_length; lia). rewrite vscale_get. ring. }
  assert (F : sdp_H m X fX grads eps (defl H u)).
  { split; [apply defl_psd; auto|]. split; [apply defl_sq; auto|]. split; [apply defl_sym; auto|]. split.
    - intros i j Hij. assert (LP : length (pair_p X i j) = m) by (unfold pair_p; rewrite Forall_forall in FX; rewrite vsub_length; [|rewrite !FX by (apply nth_In; lia); auto]; apply FX, nth_In; lia).
      destruct (Rlt_dec eps (Rabs (vget fX i - vget fX j))) as [A|A].
      + rewrite OU by (auto; apply (OX i j); auto). auto.
      + rewrite Rmax_right by lra. pose proof (defl_psd m H u SH MH Lu Nu P _ LP). nra.
    - intros g Hg x Hx. rewrite quad_outer, (defl_quad m) by auto. set (y := vsub x (vscale (dot u x) u)). assert (Ly : length y = m) by (unfold y; rewrite vsub_length; rewrite ?vscale_length; lia).
      specialize (B2 g Hg y Ly). rewrite quad_outer in B2. assert (E : dot g y = dot g x); [|rewrite E in B2; auto].
      unfold y. rewrite dot_vsub_r by (rewrite vscale_length; lia). rewrite dot_vscale_r. unfold u at 2. rewrite dot_vscale_r, (dot_comm g v), (OG g Hg). ring. }
  specialize (B _ F). rewrite (defl_trace m) in B by auto. assert (Q0 : 0 <= quad H u) by (apply P; auto). assert (Q : quad H u = 0) by lra. unfold u in Q. rewrite quad_vscale in Q.
  assert (Hi : 0 < / norm2 v) by (apply Rinv_0_lt_compat; auto). assert (Hq : 0 < / norm2 v * / norm2 v) by (apply Rmult_lt_0_compat; auto).
  destruct (Rmult_integral _ _ Q) as [Z|Z]; [rewrite Z in Hq; lra|auto].
Qed.
(** gradients of a ridge function: all of them in the row space of W; then H vanishes on the kernel of W *)
Theorem best_ridge : forall m W cs H v, Forall (dimP m) W -> Forall (fun c => length c = length W) cs -> best m [] [] (map (lincomb m W) cs) 0 H -> length v = m -> mv W v = vzero (length W) -> mv H v = vzero m.
Proof.
  intros m W cs H v FW FC B LV Z. apply (best_kernel m [] [] (map (lincomb m W) cs) 0 H v); auto; [intros i j Hij; cbn in Hij; lia|].
  intros g Hg. apply in_map_iff in Hg. destruct Hg as [c [<- Hc]]. rewrite Forall_forall in FC. specialize (FC c Hc). rewrite dot_comm, dot_lincomb_l by auto. apply rsum_zero. intros k Hk.
  assert (E : dot (nth k W []) v = vget (mv W v) k) by (rewrite mv_get; auto). rewrite E, Z. unfold vzero, vget. rewrite nth_repeat. ring.
Qed.

(** ** bounds *)
Lemma psd_sqrt_ok : forall m X fX grads eps H, Forall (dimP m) X -> Forall (dimP m) grads -> sdp_H m X fX grads eps H -> lip_ok X fX grads eps (sqrt (trace H)).
Proof.
  intros m X fX grads eps H FX FG [P [SH [MH [B1 B2]]]]. pose proof (trace_psd m H SH P) as T0. split; [apply sqrt_pos|]. split.
  - intros i j Hij. specialize (B1 i j Hij). assert (LP : length (pair_p X i j) = m) by (unfold pair_p; rewrite Forall_forall in FX; rewrite vsub_length; [|rewrite !FX by (apply nth_In; lia); auto]; apply FX, nth_In; lia).
    pose proof (psd_quad_trace m H _ SH MH P LP) as Q. apply sq_abs_le; [apply Rmult_le_pos; [apply sqrt_pos|apply norm2_nonneg]|]. fold (pair_p X i j).
    replace (sqrt (trace H) * norm2 (pair_p X i j) * (sqrt (trace H) * norm2 (pair_p X i j))) with ((sqrt (trace H) * sqrt (trace H)) * (norm2 (pair_p X i j) * norm2 (pair_p X i j))) by ring. rewrite sqrt_sqrt, norm2_sq by auto. lra.
  - intros g Hg. rewrite Forall_forall in FG. specialize (FG g Hg). unfold dimP in FG. specialize (B2 g Hg). pose proof (outer_sq m g FG) as SO.
    assert (T : 0 <= trace (msub H (outer g g))). { apply (trace_psd m); [apply msub_sq; auto|]. intros x Hx. rewrite (quad_msub m) by auto. specialize (B2 x Hx). lra. }
    rewrite (trace_msub m), trace_outer in T by auto. unfold norm2. apply sqrt_le_1_alt. unfold norm2sq. lra.
Qed.
Lemma trace_meye : forall m c, trace (mscale c (meye m)) = INR m * c.
Proof.
  intros m c. assert (S : sq m (meye m)). { split; [unfold meye; rewrite map_length, seq_length; auto|]. apply Forall_forall. intros r Hr. unfold meye in Hr. apply in_map_iff in Hr. destruct Hr as [i [<- _]]. apply unitv_len. }
  rewrite (trace_mscale m) by auto. rewrite (trace_sq m) by auto. rewrite (rsum_ext m _ (fun _ => 1)); [rewrite rsum_const; ring|]. intros i Hi. unfold mget, meye.
  rewrite (nth_map_seq _ _ m i) by auto. rewrite unitv_get by auto. rewrite Nat.eqb_refl. auto.
Qed.
Lemma meye_feasible : forall m X fX grads eps l, Forall (dimP m) X -> Forall (dimP m) grads -> lip_ok X fX grads eps l -> sdp_H m X fX grads eps (mscale (l * l) (meye m)).
Proof.
  intros m X fX grads eps l FX FG [L0 [A1 A2]].
  assert (S : sq m (meye m)). { split; [unfold meye; rewrite map_length, seq_length; auto|]. apply Forall_forall. intros r Hr. unfold meye in Hr. apply in_map_iff in Hr. destruct Hr as [i [<- _]]. apply unitv_len. }
  assert (Q : forall x, length x = m -> quad (mscale (l * l) (meye m)) x = l * l * norm2sq x).
  { intros x Hx. rewrite quad_mscale. f_equal. unfold quad, norm2sq. f_equal. apply vec_ext; [rewrite mv_length; destruct S; lia|]. intros i Hi. rewrite mv_length in Hi. assert (LM : length (meye m) = m) by apply S. rewrite mv_get by auto.
    unfold meye. rewrite (nth_map_seq _ _ m i) by lia. rewrite dot_rsum by (rewrite unitv_len; lia). rewrite unitv_len. rewrite (rsum_single m i); [|lia|].
    - rewrite unitv_get by lia. rewrite Nat.eqb_refl. ring.
    - intros k Hk NK. rewrite unitv_get by auto. destruct (Nat.eqb_spec k i); [contradiction|ring]. }
  split; [intros x Hx; rewrite Q by auto; pose proof (norm2sq_nonneg x); nra|]. split; [apply mscale_sq; auto|]. split; [|split].
  - apply mscale_sym. intros i j Hi Hj. unfold mget, meye. rewrite !(nth_map_seq _ _ m) by auto. rewrite !unitv_get by auto. rewrite Nat.eqb_sym. auto.
  - intros i j Hij. assert (LP : length (pair_p X i j) = m) by (unfold pair_p; rewrite Forall_forall in FX; rewrite vsub_length; [|rewrite !FX by (apply nth_In; lia); auto]; apply FX, nth_In; lia).
    rewrite Q by auto. rewrite <- norm2_sq. replace (l * l * (norm2 (pair_p X i j) * norm2 (pair_p X i j))) with ((l * norm2 (pair_p X i j)) * (l * norm2 (pair_p X i j))) by ring.
    apply sq_abs_le; [apply Rmult_le_pos; [auto|apply norm2_nonneg]|]. apply A1; auto.
  - intros g Hg x Hx. rewrite quad_outer, Q by auto. specialize (A2 g Hg). rewrite Forall_forall in FG. specialize (FG g Hg). unfold dimP in FG. pose proof (cauchy_schwarz_sq g x ltac:(lia)) as C. pose proof (norm2_sq g) as E. pose proof (norm2_nonneg g).
    pose proof (norm2sq_nonneg x). assert (norm2sq g <= l * l) by nra. eapply Rle_trans; [exact C|]. apply Rmult_le_compat_r; auto.
Qed.
(** the scalar Lipschitz constant l of the same data: l^2 <= trace H <= m l^2 *)
Theorem best_constant : forall m X fX grads eps H l, Forall (dimP m) X -> Forall (dimP m) grads -> best m X fX grads eps H -> least (lip_ok X fX grads eps) l ->
  l * l <= trace H <= INR m * (l * l).
Proof.
  intros m X fX grads eps H l FX FG [F B] [LO LL]. split.
  - pose proof (LL _ (psd_sqrt_ok m X fX grads eps H FX FG F)) as Q. assert (T0 : 0 <= trace H) by (apply (trace_psd m); [apply F|apply F]). pose proof (sqrt_sqrt _ T0) as E. destruct LO as [L0 _]. nra.
  - rewrite <- trace_meye. apply B, meye_feasible; auto.
Qed.
Theorem best_one : forall X fX grads eps H l, Forall (dimP 1) X -> Forall (dimP 1) grads -> best 1 X fX grads eps H -> least (lip_ok X fX grads eps) l -> H = [[l * l]].
Proof.
  intros X fX grads eps H l FX FG B LO. pose proof (best_constant 1 X fX grads eps H l FX FG B LO) as Q. destruct B as [[_ [[LH FH] _]] _].
  destruct H as [|r [|]]; try discriminate. inversion FH as [|? ? L1 _]; subst. destruct r as [|h [|]]; try discriminate. unfold trace, mget, vget in Q. cbn in Q. do 2 f_equal. lra.
Qed.
(** pairwise orthogonal gradients: the trace is at least the sum of the squares; every family: at most the sum *)
Lemma vget_repeat1 : forall n k, (k < n)%nat -> vget (repeat 1 n) k = 1.
Proof. induction n as [|n IH]; intros k Hk; [lia|]. destruct k; [reflexivity|]. apply IH. lia. Qed.
Lemma sum_outer_sq : forall m gs, Forall (dimP m) gs -> sq m (spec m (repeat 1 (length gs)) gs).
Proof. intros. apply spec_sq. auto. Qed.
Theorem best_grads_upper : forall m grads H, Forall (dimP m) grads -> best m [] [] grads 0 H -> trace H <= vsum (map norm2sq grads).
Proof.
  intros m grads H FG [_ B]. assert (SS : sq m (spec m (repeat 1 (length grads)) grads)) by (apply sum_outer_sq; auto).
  assert (Q : forall x, quad (spec m (repeat 1 (length grads)) grads) x = rsum (length grads) (fun k => dot (nth k grads []) x * dot (nth k grads []) x)).
  { intro x. rewrite quad_spec by (auto; apply repeat_length). apply rsum_ext. intros k Hk. rewrite (vget_repeat1 _ _ Hk). ring. }
  assert (T : trace (spec m (repeat 1 (length grads)) grads) = vsum (map norm2sq grads)).
  { clear - FG. induction grads as [|g gs IH]; cbn [length repeat spec map].
    - rewrite (trace_sq m) by apply mzero_sq. apply rsum_zero. intros. apply mget_mzero.
    - inversion FG as [|? ? Lg Fg]; subst. rewrite (trace_madd m); [|apply mscale_sq, outer_sq; auto|apply sum_outer_sq; auto]. rewrite (trace_mscale m) by (apply outer_sq; auto). rewrite trace_outer, IH by auto. rewrite vsum_cons. unfold norm2sq. ring. }
  rewrite <- T. apply B. split; [intros x Hx; rewrite Q; apply rsum_nonneg; intros; apply Rle_0_sqr|]. split; [auto|]. split; [apply spec_sym; auto|]. split; [intros i j Hij; cbn in Hij; lia|].
  intros g Hg x Hx. rewrite quad_outer, Q. destruct (In_nth grads g [] Hg) as [k [Hk Ek]]. rewrite (rsum_split _ k) by auto. rewrite Ek.
  assert (0 <= rsum (length grads) (fun i => if Nat.eqb i k then 0 else dot (nth i grads []) x * dot (nth i grads []) x)); [|lra]. apply rsum_nonneg. intros i Hi. destruct (Nat.eqb i k); [lra|apply Rle_0_sqr].
Qed.
Theorem best_grads_orthogonal : forall m X fX grads eps H, Forall (dimP m) grads -> sdp_H m X fX grads eps H ->
  (forall a b, (a < length grads)%nat -> (b < length grads)%nat -> a <> b -> dot (nth a grads []) (nth b grads []) = 0) -> (forall g, In g grads -> 0 < norm2 g) ->
  vsum (map norm2sq grads) <= trace H.
Proof.
  intros m X fX grads eps H FG [P [SH [MH [_ B2]]]] OR NZ. set (us := map (fun g => vscale (/ norm2 g) g) grads). assert (LU : length us = length grads) by (unfold us; apply map_length).
  assert (NU : forall k, (k < length grads)%nat -> nth k us [] = vscale (/ norm2 (nth k grads [])) (nth k grads [])). { intros k Hk. unfold us. rewrite (nth_indep _ [] (vscale (/ norm2 []) [])) by (rewrite map_length; auto). rewrite (map_nth (fun g => vscale (/ norm2 g) g)). auto. }
  assert (FU : Forall (fun u => length u = m) us). { unfold us. apply Forall_forall. intros u Hu. apply in_map_iff in Hu. destruct Hu as [g [<- Hg]]. rewrite vscale_length. rewrite Forall_forall in FG. apply FG; auto. }
  assert (OU : orthonormal us).
  { intros a b Ha Hb. rewrite LU in Ha, Hb. rewrite !NU by auto. rewrite dot_vscale_l, dot_vscale_r. destruct (Nat.eqb_spec a b) as [->|N]; [|rewrite OR by auto; ring].
    pose proof (NZ _ (nth_In grads [] Hb)) as Z. change (dot (nth b grads []) (nth b grads [])) with (norm2sq (nth b grads [])). rewrite <- norm2_sq. field. lra. }
  pose proof (psd_bessel us m H SH MH P FU OU) as Q. eapply Rle_trans; [|exact Q]. rewrite vsum_rsum, map_length, LU. apply rsum_le. intros k Hk.
  unfold vget. rewrite (nth_indep _ 0 (norm2sq [])) by (rewrite map_length; auto). rewrite (map_nth norm2sq). rewrite NU by auto. set (g := nth k grads []). assert (Hg : In g grads) by (apply nth_In; auto). pose proof (NZ g Hg) as Z.
  assert (Lg : length g = m) by (rewrite Forall_forall in FG; apply FG; auto). specialize (B2 g Hg (vscale (/ norm2 g) g) ltac:(rewrite vscale_length; auto)). eapply Rle_trans; [|exact B2]. rewrite quad_outer, dot_vscale_r. change (dot g g) with (norm2sq g). rewrite <- norm2_sq. right. field. lra.
Qed.
(** one gradient determines the minimiser *)
Theorem best_single : forall m g H, length g = m -> (best m [] [] [g] 0 H <-> H = outer g g).
Proof.
  intros m g H Lg. pose proof (outer_sq m g Lg) as SO. assert (MO : msym m (outer g g)) by (rewrite <- Lg; apply outer_sym). split.
  - intros B. pose proof (best_grads_upper m [g] H ltac:(constructor; auto) B) as T. cbn [map] in T. rewrite vsum_cons in T. change (vsum []) with 0 in T. destruct B as [[P [SH [MH [_ B2]]]] _]. specialize (B2 g (or_introl eq_refl)).
    assert (PD : psd m (msub H (outer g g))) by (intros x Hx; rewrite (quad_msub m) by auto; specialize (B2 x Hx); lra). assert (SD : sq m (msub H (outer g g))) by (apply msub_sq; auto). assert (MD : msym m (msub H (outer g g))) by (apply msub_sym; auto).
    apply (quad_ext m); auto. intros x Hx. pose proof (psd_quad_trace m _ x SD MD PD Hx) as Q. rewrite (trace_msub m), trace_outer, (quad_msub m) in Q by auto. unfold norm2sq in T at 1. specialize (B2 x Hx). pose proof (norm2sq_nonneg x). nra.
  - intros ->. split.
    + split; [intros x Hx; rewrite quad_outer; apply Rle_0_sqr|]. split; [auto|]. split; [auto|]. split; [intros i j Hij; cbn in Hij; lia|]. intros g' [<-|[]]. apply loewner_refl.
    + intros G FG. pose proof (psd_sqrt_ok m [] [] [g] 0 G ltac:(constructor) ltac:(constructor; auto) FG) as [_ [_ Q]]. specialize (Q g (or_introl eq_refl)). rewrite trace_outer. assert (T0 : 0 <= trace G) by (apply (trace_psd m); apply FG).
      pose proof (sqrt_sqrt _ T0). pose proof (norm2_sq g) as E. pose proof (norm2_nonneg g). unfold norm2sq in E. nra.
Qed.
(** the (weighted) outer product matrix of the gradients, which the active subspace decomposes, is below every feasible H *)
Theorem feasible_active : forall m X fX grads eps H w, Forall (dimP m) grads -> sdp_H m X fX grads eps H -> length w = length grads -> Forall (fun a => 0 <= a) w -> vsum w = 1 -> loewner m (spec m w grads) H.
Proof.
  intros m X fX grads eps H w FG [P [SH [MH [_ B2]]]] LW W0 W1 x Hx. rewrite quad_spec by auto. replace (quad H x) with (vsum w * quad H x) by (rewrite W1; ring). rewrite vsum_rsum, LW, <- rsum_scal_r. apply rsum_le. intros k Hk.
  assert (0 <= vget w k) by (rewrite Forall_forall in W0; apply W0, nth_In; lia). pose proof (B2 (nth k grads []) (nth_In _ _ Hk) x Hx) as Q. rewrite quad_outer in Q. apply Rmult_le_compat_l; auto.
Qed.
(** minimisers form a convex set *)
Theorem best_convex : forall m X fX grads eps G H t, 0 <= t <= 1 -> best m X fX grads eps G -> best m X fX grads eps H -> best m X fX grads eps (madd (mscale t G) (mscale (1 - t) H)).
Proof.
  intros m X fX grads eps G H t Ht BG BH. destruct BG as [FG OG]. destruct BH as [FH OH]. assert (SG : sq m G) by apply FG. assert (SH : sq m H) by apply FH. pose proof (OG H FH). pose proof (OH G FG).
  assert (SG' : sq m (mscale t G)) by (apply mscale_sq; auto). assert (SH' : sq m (mscale (1 - t) H)) by (apply mscale_sq; auto).
  assert (Q : forall x, quad (madd (mscale t G) (mscale (1 - t) H)) x = t * quad G x + (1 - t) * quad H x) by (intro x; rewrite (quad_madd m) by auto; rewrite !quad_mscale; auto).
  split.
  - destruct FG as [PG [_ [MG [G1 G2]]]]. destruct FH as [PH [_ [MH [K1 K2]]]]. split; [|split; [|split; [|split]]].
    + intros x Hx. rewrite Q. specialize (PG x Hx). specialize (PH x Hx). nra.
    + apply madd_sq; auto.
    + apply madd_sym; auto; apply mscale_sym; auto.
    + intros i j Hij. rewrite Q. specialize (G1 i j Hij). specialize (K1 i j Hij). nra.
    + intros g Hg x Hx. rewrite Q. specialize (G2 g Hg x Hx). specialize (K2 g Hg x Hx). nra.
  - intros K FK. rewrite (trace_madd m), !(trace_mscale m) by auto. specialize (OG K FK). specialize (OH K FK). nra.
Qed.

(** PartialLipschitzMatrix (C78). *)
Require Import Reals Lra Lia List Bool Arith.
From Verif Require Import RVec Num Sums DomMoreModel SweepProofs HullProofs VecTac Deriv ArnoldiMoreProofs MatLib SpecProofs LipModel LipProofs LipConstProofs ProjProofs GrassLib LipFitProofs SdpProofs.
Import ListNotations.
Local Open Scope R_scope.

(** np.linalg.qr(U, mode = 'complete') for U with orthonormal columns: Q orthogonal, U = Q R with R upper triangular *)
Definition qr_ok (m : nat) (us q : list vec) : Prop :=
  onb m q /\ forall k j, (k < length us)%nat -> (k < j < m)%nat -> dot (nth k us []) (nth j q []) = 0.
(** then every column of U is plus or minus the corresponding column of Q *)
Lemma qr_pm : forall m us q, Forall (dimP m) us -> orthonormal us -> (length us <= m)%nat -> qr_ok m us q ->
  forall k, (k < length us)%nat -> forall x, length x = m -> dot (nth k us []) x * dot (nth k us []) x = dot (nth k q []) x * dot (nth k q []) x.
Proof.
  intros m us q FU OU LM [OB UT]. pose proof OB as [LQ [FQ OQ]].
  assert (LUk : forall k, (k < length us)%nat -> length (nth k us []) = m) by (intros k Hk; rewrite Forall_forall in FU; apply FU, nth_In; auto).
  assert (ST : forall k, (k < length us)%nat -> exists c, c * c = 1 /\ nth k us [] = vscale c (nth k q [])).
  { apply (well_founded_induction Wf_nat.lt_wf (fun k => (k < length us)%nat -> exists c, c * c = 1 /\ nth k us [] = vscale c (nth k q []))). intros k IH Hk.
    assert (Z : forall j, (j < m)%nat -> j <> k -> dot (nth j q []) (nth k us []) = 0).
    { intros j Hj NE. destruct (Nat.lt_ge_cases j k) as [LT|GE].
      - destruct (IH j LT ltac:(lia)) as [c [C E]]. pose proof (OU j k ltac:(lia) Hk) as O1. destruct (Nat.eqb_spec j k); [lia|]. rewrite E, dot_vscale_l in O1. assert (c <> 0) by (intros ->; lra). apply Rmult_integral in O1. destruct O1; [contradiction|auto].
      - rewrite dot_comm. apply UT; auto. lia. }
    set (c := dot (nth k q []) (nth k us [])). assert (E : nth k us [] = vscale c (nth k q [])).
    { rewrite <- (onb_expand m q (nth k us []) OB) by auto. apply vec_ext; [rewrite lincomb_length, vscale_length by auto; symmetry; apply (onb_row m); auto; lia|]. intros i Hi. rewrite lincomb_length in Hi by auto. rewrite (lincomb_get m) by (auto; apply mv_length). rewrite LQ. rewrite (rsum_single m k); [|lia|].
      - rewrite mv_get by lia. rewrite vscale_get. auto.
      - intros j Hj NE. rewrite mv_get by lia. rewrite Z by auto. ring. }
    exists c. split; auto. pose proof (OU k k Hk Hk) as O1. rewrite Nat.eqb_refl in O1. rewrite E, dot_vscale_l, dot_vscale_r in O1. rewrite (OQ k k) in O1 by lia. rewrite Nat.eqb_refl in O1. lra. }
  intros k Hk x Hx. destruct (ST k Hk) as [c [C E]]. rewrite E, dot_vscale_l. set (d := dot _ x). replace (c * d * (c * d)) with (c * c * (d * d)) by ring. rewrite C. ring.
Qed.
Lemma vget_repeat : forall (a : R) n k, (k < n)%nat -> vget (repeat a n) k = a.
Proof. intros a n. induction n as [|n IH]; intros [|k] Hk; try lia; auto. simpl. apply IH. lia. Qed.
Lemma meye_sq : forall m, sq m (meye m).
Proof. intro m. split; [unfold meye; rewrite map_length, seq_length; auto|]. apply Forall_forall. intros r I. unfold meye in I. apply in_map_iff in I. destruct I as [i [<- _]]. apply unitv_len. Qed.
Lemma quad_meye : forall m x, length x = m -> quad (meye m) x = dot x x.
Proof.
  intros m x L. unfold quad. f_equal. apply vec_ext; [rewrite mv_length; unfold meye; rewrite map_length, seq_length; auto|]. intros i Hi. rewrite mv_length in Hi. unfold meye in Hi. rewrite map_length, seq_length in Hi. rewrite mv_get by (unfold meye; rewrite map_length, seq_length; auto). unfold meye. rewrite nth_map_seq by auto. rewrite dot_comm. apply dot_unitv; auto.
Qed.
Lemma pl_H_quad : forall m us w alpha x, Forall (dimP m) us -> length w = length us -> length x = m ->
  quad (pl_H m us w alpha) x = rsum (length us) (fun k => vget w k * (dot (nth k us []) x * dot (nth k us []) x)) + alpha * (dot x x - rsum (length us) (fun k => dot (nth k us []) x * dot (nth k us []) x)).
Proof.
  intros m us w alpha x FU Lw Lx. unfold pl_H. pose proof (meye_sq m) as SE. assert (S1 : sq m (spec m w us)) by (apply spec_sq; auto). assert (S2 : sq m (spec m (repeat 1 (length us)) us)) by (apply spec_sq; auto).
  rewrite (quad_madd m) by (auto; apply mscale_sq, msub_sq; auto). rewrite quad_mscale, (quad_msub m) by auto. rewrite quad_meye by auto. rewrite !quad_spec by (auto; apply repeat_length). f_equal. f_equal. f_equal. apply rsum_ext. intros k Hk. rewrite vget_repeat by auto. ring.
Qed.
(** L is a square root of H *)
Theorem pl_root : forall m us q w alpha x, Forall (dimP m) us -> orthonormal us -> (length us <= m)%nat -> qr_ok m us q -> length w = length us -> Forall (fun a => 0 <= a) w -> 0 <= alpha -> length x = m ->
  norm2sq (mv (pl_L m q w alpha) x) = quad (pl_H m us w alpha) x /\ 0 <= quad (pl_H m us w alpha) x.
Proof.
  intros m us q w alpha x FU OU LM QR Lw W0 A0 Lx. assert (E : norm2sq (mv (pl_L m q w alpha) x) = quad (pl_H m us w alpha) x).
  { rewrite pl_H_quad by auto. pose proof QR as [OB UT]. pose proof OB as [LQ [FQ OQ]]. unfold pl_L. set (r := length us) in *. unfold norm2sq.
    assert (LL : length (map sqrt (w ++ repeat alpha (m - length w))) = m) by (rewrite map_length, app_length, repeat_length; lia).
    change (dot (mv ?A x) (mv ?A x)) with (norm2sq (mv A x)). rewrite (dot_spec_sq m) by (auto; lia). rewrite LQ. pose proof (parseval m q x OB Lx) as PV. unfold norm2sq in PV. rewrite PV.
    assert (SP : forall f, rsum m f = rsum r f + rsum (m - r) (fun d => f (r + d)%nat)) by (intro f; rewrite <- rsum_app; f_equal; lia).
    rewrite !SP. rewrite (rsum_ext r (fun k => dot (nth k us []) x * dot (nth k us []) x) (fun k => dot (nth k q []) x * dot (nth k q []) x)) by (intros k Hk; apply (qr_pm m us q); auto).
    rewrite (rsum_ext r (fun k => vget w k * (dot (nth k us []) x * dot (nth k us []) x)) (fun k => vget w k * (dot (nth k q []) x * dot (nth k q []) x))) by (intros k Hk; f_equal; apply (qr_pm m us q); auto).
    assert (G1 : forall k, (k < r)%nat -> vget (map sqrt (w ++ repeat alpha (m - length w))) k * vget (map sqrt (w ++ repeat alpha (m - length w))) k = vget w k).
    { intros k Hk. rewrite mapfun_get by (rewrite app_length; lia). unfold vget at 1 2. rewrite app_nth1 by lia. apply sqrt_sqrt. rewrite Forall_forall in W0. apply W0, nth_In. lia. }
    assert (G2 : forall d, (d < m - r)%nat -> vget (map sqrt (w ++ repeat alpha (m - length w))) (r + d) * vget (map sqrt (w ++ repeat alpha (m - length w))) (r + d) = alpha).
    { intros d Hd. rewrite mapfun_get by (rewrite app_length, repeat_length; lia). unfold vget at 1 2. rewrite app_nth2 by lia. replace (r + d - length w)%nat with d by lia. change (nth d ?l 0) with (vget l d). rewrite vget_repeat by lia. apply sqrt_sqrt. auto. }
    rewrite (rsum_ext r (fun k => _ * _ * _) (fun k => vget w k * (dot (nth k q []) x * dot (nth k q []) x))) by (intros k Hk; rewrite G1 by auto; auto).
    rewrite (rsum_ext (m - r) (fun d => vget _ _ * _ * _) (fun d => alpha * (dot (nth (r + d) q []) x * dot (nth (r + d) q []) x))) by (intros d Hd; rewrite G2 by auto; auto).
    rewrite rsum_scal_l. ring. }
  split; auto. rewrite <- E. apply norm2sq_nonneg.
Qed.

(** ** _fit *)
Lemma scale_cols_orth : forall m s us, pm1 s -> length s = length us -> Forall (dimP m) us -> orthonormal us -> Forall (dimP m) (scale_cols s us) /\ orthonormal (scale_cols s us).
Proof.
  intros m s us P Ls F OR. split.
  - apply Forall_forall. intros u I. apply (In_nth _ _ []) in I. destruct I as [k [Hk <-]]. rewrite scale_cols_len in Hk by lia. rewrite scale_cols_nth by lia. unfold dimP. rewrite vscale_length. rewrite Forall_forall in F. apply F, nth_In. auto.
  - intros a b Ha Hb. rewrite scale_cols_len in Ha, Hb by lia. rewrite !scale_cols_nth by lia. rewrite dot_vscale_l, dot_vscale_r. rewrite (OR a b) by auto. destruct (Nat.eqb_spec a b) as [->|]; [|ring]. rewrite Rmult_1_r. apply pm1_get; auto. lia.
Qed.
Lemma dot_lincomb_mv : forall m us v x, Forall (dimP m) us -> length v = length us -> dot (lincomb m us v) x = dot v (mv us x).
Proof. intros m us v x F L. rewrite (dot_lincomb_l m) by auto. rewrite (dot_rs (length us)) by (auto; apply mv_length). apply rsum_ext. intros k Hk. rewrite mv_get by auto. auto. Qed.
Definition pl_signs_fine (eigh : mat -> vec * list vec) (m : nat) (us : list vec) (J : mat) (grads : mat) (scale : R) : Prop :=
  grads = [] \/ forall v, In v (snd (eigh J)) -> mean_slope (lincomb m us v) (map (vscale (/ scale)) grads) <> 0.
Theorem pl_fit_correct : forall eigh m us J alpha X fX grads scale us' w a, eigh_ok (length us) eigh -> Forall (dimP m) us -> orthonormal us -> sq (length us) J -> msym (length us) J -> psd (length us) J ->
  pl_signs_fine eigh m us J grads scale -> pl_fit eigh m us J alpha X fX grads scale = (us', w, a) ->
  length us' = length us /\ Forall (dimP m) us' /\ orthonormal us' /\ length w = length us /\ Forall (fun b => 0 <= b) w /\
  forall x, length x = m -> quad (pl_H m us' w a) x = scale ^ 2 * (quad J (mv us x) + alpha * (dot x x - dot (mv us x) (mv us x))).
Proof.
  intros eigh m us J alpha X fX grads scale us' w a EK FU OU SJ MJ PJ SF E. unfold pl_fit in E. injection E as E1 E2 E3. change (scale * (scale * 1)) with (scale ^ 2) in *. subst w a. set (r := length us) in *. pose proof (EK J SJ MJ) as EP. pose proof EP as [Lw [OB [ES SO]]]. set (e := eigh J) in *.
  pose proof OB as [LV [FV OV]]. set (rot := map (lincomb m us) (rev (snd e))) in *.
  assert (Lrot : length rot = r) by (unfold rot; rewrite map_length, rev_length; auto).
  assert (Lk : forall k, (k < r)%nat -> length (nth k (snd e) []) = r) by (intros; apply (onb_row r); auto).
  assert (RK : forall k, (k < r)%nat -> nth k rot [] = lincomb m us (nth (r - 1 - k) (snd e) [])).
  { intros k Hk. unfold rot. rewrite (nth_map_any _ _ _ _ k []) by (rewrite rev_length; lia). rewrite rev_nth by lia. do 2 f_equal. lia. }
  assert (FR : Forall (dimP m) rot) by (apply Forall_forall; intros u I; unfold rot in I; apply in_map_iff in I; destruct I as [v [<- _]]; apply lincomb_length; auto).
  assert (OR : orthonormal rot).
  { intros i j Hi Hj. rewrite Lrot in Hi, Hj. rewrite !RK by auto. rewrite (dot_lincomb2 m) by (auto; apply Lk; lia). rewrite (OV (r - 1 - i) (r - 1 - j))%nat by lia. destruct (Nat.eqb_spec (r - 1 - i) (r - 1 - j)), (Nat.eqb_spec i j); auto; lia. }
  set (gr := map (vscale (/ scale)) grads) in *. unfold fix_signs in E1. set (s := match gr with [] => _ | _ :: _ => _ end) in E1.
  assert (P : pm1 s).
  { apply signs_any_pm1. destruct SF as [G|N]; [left; unfold gr; rewrite G; reflexivity|right]. intros u I. unfold rot in I. apply in_map_iff in I. destruct I as [v [<- I]]. apply N. apply in_rev in I. auto. }
  assert (Ls : length s = length rot) by (unfold s; apply signs_len). destruct (scale_cols_orth m s rot P Ls FR OR) as [F' O']. subst us'. rewrite scale_cols_len by auto.
  assert (W0 : forall k, (k < r)%nat -> 0 <= vget (fst e) k).
  { intros k Hk. specialize (PJ (nth k (snd e) []) (Lk k Hk)). rewrite (eigh_quad r J e _ EP) in PJ. rewrite (rsum_single r k) in PJ; [|auto|].
    - rewrite (OV k k) in PJ by lia. rewrite Nat.eqb_refl in PJ. lra.
    - intros j Hj NE. rewrite (OV j k) by lia. destruct (Nat.eqb_spec j k); [contradiction|ring]. }
  assert (LW : length (vscale (scale ^ 2) (rev (fst e))) = r) by (rewrite vscale_length, rev_length; auto).
  split; [auto|]. split; auto. split; auto. split; [exact LW|]. split.
  - apply Forall_forall. intros b I. unfold vscale in I. apply in_map_iff in I. destruct I as [b' [<- I]]. apply in_rev in I. apply (In_nth _ _ 0) in I. destruct I as [k [Hk <-]]. apply Rmult_le_pos; [apply pow2_ge_0|apply W0; lia].
  - intros x Lx. rewrite pl_H_quad by (auto; rewrite LW, scale_cols_len by auto; lia). rewrite scale_cols_len by auto. rewrite Lrot.
    assert (SQ : forall k, (k < r)%nat -> dot (nth k (scale_cols s rot) []) x * dot (nth k (scale_cols s rot) []) x = dot (nth (r - 1 - k) (snd e) []) (mv us x) * dot (nth (r - 1 - k) (snd e) []) (mv us x)).
    { intros k Hk. rewrite scale_cols_nth by lia. rewrite dot_vscale_l. rewrite RK by auto. rewrite dot_lincomb_mv by (auto; apply Lk; lia). pose proof (pm1_get s k P ltac:(lia)) as S2. set (d := dot _ (mv us x)). replace (vget s k * d * (vget s k * d)) with (vget s k * vget s k * (d * d)) by ring. rewrite S2. ring. }
    rewrite (eigh_quad r J e _ EP). pose proof (parseval r (snd e) (mv us x) OB ltac:(apply mv_length)) as PV. unfold norm2sq in PV. rewrite PV.
    rewrite (rsum_ext r (fun k => vget (vscale (scale ^ 2) (rev (fst e))) k * _) (fun k => scale ^ 2 * (vget (fst e) (r - 1 - k) * (dot (nth (r - 1 - k) (snd e) []) (mv us x) * dot (nth (r - 1 - k) (snd e) []) (mv us x))))).
    2:{ intros k Hk. rewrite SQ by auto. rewrite vscale_get, rev_get by lia. rewrite Lw. ring. }
    rewrite (rsum_ext r (fun k => dot (nth k (scale_cols s rot) []) x * _) (fun k => dot (nth (r - 1 - k) (snd e) []) (mv us x) * dot (nth (r - 1 - k) (snd e) []) (mv us x))) by (intros k Hk; apply SQ; auto).
    rewrite rsum_scal_l. rewrite (rsum_rev r (fun k => vget (fst e) k * (dot (nth k (snd e) []) (mv us x) * dot (nth k (snd e) []) (mv us x)))). rewrite (rsum_rev r (fun k => dot (nth k (snd e) []) (mv us x) * dot (nth k (snd e) []) (mv us x))). ring.
Qed.
(** the reported L meets the constraints of the original data *)
Theorem pl_fit_constraints : forall eigh m us J alpha X fX grads scale eps us' w a q, eigh_ok (length us) eigh -> Forall (dimP m) us -> orthonormal us -> (length us <= m)%nat -> 0 < scale -> Forall (dimP m) X ->
  pl_feasible m us X (vscale (/ scale) fX) (map (vscale (/ scale)) grads) (eps / scale) J alpha ->
  pl_signs_fine eigh m us J grads scale -> pl_fit eigh m us J alpha X fX grads scale = (us', w, a) -> qr_ok m us' q ->
  let L := pl_L m q w a in
  (forall i j, (i < j < length X)%nat -> Rabs (vget fX i - vget fX j) <= norm2 (mv L (vsub (nth i X []) (nth j X []))) + eps) /\
  (forall g x, In g grads -> length x = m -> Rabs (dot g x) <= norm2 (mv L x)).
Proof.
  intros eigh m us J alpha X fX grads scale eps us' w a q EK FU OU LM PS FX [SJ [MJ [PJ [A0 [_ [B1 B2]]]]]] SF E QR L.
  destruct (pl_fit_correct eigh m us J alpha X fX grads scale us' w a EK FU OU SJ MJ PJ SF E) as [L1 [F1 [O1 [Lw [W0 Q]]]]].
  assert (Ea : a = scale ^ 2 * alpha) by (unfold pl_fit in E; inversion E; auto). assert (A1 : 0 <= a) by (rewrite Ea; apply Rmult_le_pos; [apply pow2_ge_0|auto]).
  assert (NL : forall x, length x = m -> scale ^ 2 * pl_rhs us J alpha x = norm2sq (mv L x)).
  { intros x Hx. unfold pl_rhs. rewrite <- Q by auto. destruct (pl_root m us' q w a x F1 O1 ltac:(lia) QR ltac:(lia) W0 A1 Hx) as [R1 _]. symmetry. exact R1. }
  split.
  - intros i j Hij. pose proof (pp_len m X FX i j Hij) as LP. specialize (B1 i j Hij). cbv zeta in B1. specialize (NL _ LP). fold (pair_p X i j) in *. set (p := pair_p X i j) in *. rewrite !vscale_get in B1. set (df := vget fX i - vget fX j).
    replace (/ scale * vget fX i - / scale * vget fX j) with (/ scale * df) in B1 by (unfold df; ring). rewrite Rabs_mult, (Rabs_right (/ scale)) in B1 by (apply Rle_ge, Rlt_le, Rinv_0_lt_compat; auto).
    assert (E1 : / scale * Rabs df - eps / scale = (Rabs df - eps) / scale) by (field; lra). rewrite E1 in B1.
    assert (QQ : (Rabs df - eps) * (Rabs df - eps) <= norm2sq (mv L p)).
    { rewrite <- NL. replace ((Rabs df - eps) * (Rabs df - eps)) with (scale ^ 2 * ((Rabs df - eps) / scale) ^ 2) by (field; lra). apply Rmult_le_compat_l; [apply pow2_ge_0|auto]. }
    rewrite <- norm2_sq in QQ. pose proof (norm2_nonneg (mv L p)). destruct (Rle_dec (Rabs df) eps); nra.
  - intros g x I Hx. specialize (NL x Hx). specialize (B2 (vscale (/ scale) g) (in_map _ _ _ I) x Hx). rewrite dot_vscale_l in B2.
    assert (QQ : dot g x * dot g x <= norm2sq (mv L x)).
    { rewrite <- NL. replace (dot g x * dot g x) with (scale ^ 2 * (/ scale * dot g x * (/ scale * dot g x))) by (field; lra). apply Rmult_le_compat_l; [apply pow2_ge_0|auto]. }
    rewrite <- norm2_sq in QQ. pose proof (norm2_nonneg (mv L x)). unfold Rabs. destruct (Rcase_abs _); nra.
Qed.
(** finding: the sample constraint lacks max(., 0): constant data and epsilon = 1 force H >= 1 where H = 0 is an epsilon-Lipschitz matrix *)
Theorem pl_epsilon_refuted : exists X fX us, Forall (dimP 1) X /\ onb 1 us /\ sdp_H 1 X fX [] 1 [[0]] /\
  forall J alpha, pl_feasible 1 us X fX [] 1 J alpha -> 1 <= pl_obj 1 1 (J, alpha).
Proof.
  exists [[0]; [1]], [0; 0], [[1]]. split; [repeat constructor|]. split; [apply onb1|]. split.
  - split; [intros [|x [|]] Hx; try discriminate; rewrite quad1; lra|]. split; [apply sq1|]. split; [intros i j Hi Hj; assert (i = 0 /\ j = 0)%nat as [-> ->] by lia; auto|]. split; [|intros g []].
    intros i j Hij. simpl in Hij. assert (i = 0 /\ j = 1)%nat as [-> ->] by lia. unfold vget. cbn [nth]. replace (0 - 0) with 0 by ring. rewrite Rabs_R0, Rmax_right by lra. unfold pair_p. cbn [nth vsub vmap2]. rewrite quad1. lra.
  - intros J alpha [SJ [_ [_ [A0 [AZ [B _]]]]]]. cbn [length] in *. specialize (AZ eq_refl). subst alpha. specialize (B 0 1)%nat. unfold vget in B. cbn [nth length vsub vmap2] in B. specialize (B ltac:(lia)). replace (0 - 0) with 0 in B by ring. rewrite Rabs_R0 in B.
    destruct J as [|[|h [|]] [|]]; destruct SJ as [L F]; try discriminate; inversion F as [|? ? L1 _]; try discriminate. unfold pl_rhs in B. cbn [mv map] in B. rewrite !dot1, quad1 in B. unfold pl_obj, trace, mget, vget. cbn. lra.
Qed.

(** ** _optimize *)
Section Opt.
Context {D : Type} (descent : list vec -> mat * R -> option D) (small : D -> bool) (step : list vec -> D -> R -> list vec) (fixedU : list vec -> mat * R) (ob : mat * R -> R) (tol : R) (P : list vec -> Prop).
Hypothesis PS : forall U d t, P U -> descent U (fixedU U) = Some d -> P (step U d t).
Lemma pl_search_spec : forall n (sf : R -> list vec) obj t last, (forall t, P (sf t)) -> (n = 0%nat -> P (fst last)) -> (n = 0%nat -> snd last = fixedU (fst last)) ->
  P (fst (pl_search n sf fixedU ob obj t last)) /\ snd (pl_search n sf fixedU ob obj t last) = fixedU (fst (pl_search n sf fixedU ob obj t last)).
Proof.
  intros n sf obj t last PT. revert t last. induction n as [|n IH]; intros t last H1 H2; cbn [pl_search]; [auto|]. cbv zeta. destruct (Rltb _ _); [cbn; auto|]. apply IH; intros _; cbn; auto.
Qed.
Lemma pl_loop_spec : forall n U obj U' Ja', P U -> obj = ob (fixedU U) -> pl_loop n descent small step fixedU ob tol U (fixedU U) obj = Some (U', Ja') ->
  P U' /\ Ja' = fixedU U' /\ ob Ja' <= obj.
Proof.
  induction n as [|n IH]; intros U obj U' Ja' HU E H; cbn [pl_loop] in H; [inversion H; subst; split; auto; split; auto; lra|].
  destruct (descent U (fixedU U)) as [dU|] eqn:DE; [|discriminate]. destruct (small dU); [inversion H; subst; split; auto; split; auto; lra|].
  destruct (pl_search_spec 10 (step U dU) obj 1 (U, fixedU U)) as [S1 S2]; [intro t; apply PS; auto|discriminate|discriminate|]. set (r := pl_search 10 (step U dU) fixedU ob obj 1 (U, fixedU U)) in *. cbv zeta in H.
  destruct (Rltb obj (ob (snd r))) eqn:C1; [inversion H; subst; split; auto; split; auto; lra|]. apply Rltb_false in C1.
  destruct (Rltb obj (ob (snd r) + tol)) eqn:C2.
  - inversion H as [E1]. rewrite (surjective_pairing r) in E1. inversion E1; subst U' Ja'. split; auto.
  - rewrite S2 in H at 1. destruct (IH (fst r) (ob (snd r)) U' Ja' S1 ltac:(rewrite S2; auto) H) as [A [B C]]. split; auto. split; auto. lra.
Qed.
End Opt.
(** the objective never increases, the returned J, alpha are the optimal ones for the returned U, and any property of U that
    the steps preserve (for instance orthonormal columns, [pl_geo_orthonormal]) is kept *)
Theorem pl_optimize_monotone : forall (D : Type) (descent : list vec -> mat * R -> option D) small step fixedU ob tol (P : list vec -> Prop) maxiter U0 U Ja,
  (forall U d t, P U -> descent U (fixedU U) = Some d -> P (step U d t)) -> P U0 -> pl_optimize maxiter descent small step fixedU ob tol U0 = Some (U, Ja) ->
  P U /\ Ja = fixedU U /\ ob Ja <= ob (fixedU U0).
Proof. intros D descent small step fixedU ob tol P maxiter U0 U Ja PS P0 E. unfold pl_optimize in E. eapply pl_loop_spec; eauto. Qed.

(** ** _U_descent: the linearizations *)
Definition line (us ups : list vec) (x : vec) (t : R) : vec := vadd (mv us x) (vscale t (mv ups x)).
(** the constraint function along U + t U', J + t J', alpha + t alpha' *)
Definition pl_path (us : list vec) (J : mat) (alpha : R) (ups : list vec) (Jp : mat) (alphap : R) (x : vec) (t : R) : R :=
  dot (line us ups x t) (vadd (mv J (line us ups x t)) (vscale t (mv Jp (line us ups x t)))) + (alpha + t * alphap) * (dot x x - dot (line us ups x t) (line us ups x t)).
Lemma d_cubic : forall c0 c1 c2 c3, derivable_pt_lim (fun t => c0 + c1 * t + c2 * t * t + c3 * t * t * t) 0 c1.
Proof.
  intros. apply d_ext with (f := fun t => c0 + c1 * t + c2 * t * t + c3 * t * t * t) (l := 0 + c1 * 1 + (c2 * 1 * 0 + c2 * 0 * 1) + ((c3 * 1 * 0 + c3 * 0 * 1) * 0 + c3 * 0 * 0 * 1)); [auto|ring|].
  apply d_plus; [apply d_plus; [apply d_plus; [apply d_const|apply d_scal, d_id]|]|].
  - apply (d_mult (fun t => c2 * t) (fun t => t)); [apply d_scal, d_id|apply d_id].
  - apply (d_mult (fun t => c3 * t * t) (fun t => t)); [|apply d_id]. apply (d_mult (fun t => c3 * t) (fun t => t)); [apply d_scal, d_id|apply d_id].
Qed.
Lemma mv_sym_dot : forall r J a b, sq r J -> msym r J -> length a = r -> length b = r -> dot a (mv J b) = dot b (mv J a).
Proof.
  intros r J a b SJ MJ La Lb. pose proof SJ as [LJ _]. rewrite (dot_rs r) by (auto; rewrite mv_length; auto). rewrite (dot_rs r b) by (auto; rewrite mv_length; auto).
  rewrite (rsum_ext r _ (fun i => rsum r (fun j => vget a i * (mget J i j * vget b j)))).
  2:{ intros i Hi. rewrite mv_get by lia. rewrite (dot_rs r) by (auto; apply (sq_row r); auto). rewrite rsum_scal_l. auto. }
  rewrite rsum_swap. apply rsum_ext. intros j Hj. rewrite mv_get by lia. rewrite (dot_rs r (nth j J [])) by (auto; apply (sq_row r); auto). rewrite <- rsum_scal_l. apply rsum_ext. intros i Hi. fold (mget J j i). rewrite (MJ j i) by auto. ring.
Qed.
Theorem pl_lin_true : forall us J alpha ups Jp alphap x, length ups = length us -> sq (length us) J -> msym (length us) J -> sq (length us) Jp -> msym (length us) Jp ->
  derivable_pt_lim (pl_path us J alpha ups Jp alphap x) 0 (pl_lin_grad us J alpha ups Jp alphap x).
Proof.
  intros us J alpha ups Jp alphap x L SJ MJ SP MP. set (r := length us) in *. set (a := mv us x). set (b := mv ups x). assert (La : length a = r) by apply mv_length. assert (Lb : length b = r) by (unfold b; rewrite mv_length; auto).
  assert (LJ : length J = r) by apply SJ. assert (LP : length Jp = r) by apply SP.
  apply d_ext with (f := fun t => (dot a (mv J a) + alpha * (dot x x - dot a a))
      + (quad Jp a + (dot b (mv J a) + dot b (mv J a)) - alpha * (dot b a + dot b a) + alphap * (dot x x - dot a a)) * t
      + (dot b (mv J b) + 2 * dot b (mv Jp a) - alpha * dot b b - alphap * (dot b a + dot b a)) * t * t + (dot b (mv Jp b) - alphap * dot b b) * t * t * t)
    (l := quad Jp a + (dot b (mv J a) + dot b (mv J a)) - alpha * (dot b a + dot b a) + alphap * (dot x x - dot a a)).
  - intro t. unfold pl_path, line. fold a b. assert (LT : length (vadd a (vscale t b)) = r) by vlen.
    rewrite !mv_vadd by (rewrite vscale_length; lia). rewrite !mv_vscale.
    rewrite dot_vadd_r by vlen. rewrite !dot_vscale_r. rewrite !dot_vadd_l by vlen. rewrite !dot_vadd_r by vlen. rewrite !dot_vscale_l, !dot_vscale_r. rewrite (mv_sym_dot r J a b), (mv_sym_dot r Jp a b) by auto. rewrite (dot_comm a b). unfold quad. ring.
  - reflexivity.
  - apply d_cubic.
Qed.
(** finding: the sample constraint of _U_descent uses J U^T y in the alpha term, the derivative has U^T y *)
Theorem pl_lin_refuted : exists us J alpha ups Jp alphap y, length ups = length us /\ sq (length us) J /\ msym (length us) J /\ sq (length us) Jp /\ msym (length us) Jp /\
  (forall u d, In u us -> In d ups -> dot u d = 0) /\ pl_lin us J alpha ups Jp alphap y = 0 /\ derivable_pt_lim (pl_path us J alpha ups Jp alphap y) 0 2.
Proof.
  exists [[1; 0]], [[2]], 1, [[0; 1]], [[0]], 0, [1; 1].
  assert (M1 : forall h, msym 1 [[h]]) by (intros h i j Hi Hj; assert (i = 0 /\ j = 0)%nat as [-> ->] by lia; auto).
  split; auto. split; [apply sq1|]. split; [apply M1|]. split; [apply sq1|]. split; [apply M1|]. split; [|split].
  - intros u d [<-|[]] [<-|[]]. unfold dot. cbn. ring.
  - unfold pl_lin, quad, mv, dot. cbn. ring.
  - apply d_ext with (f := pl_path [[1; 0]] [[2]] 1 [[0; 1]] [[0]] 0 [1; 1]) (l := pl_lin_grad [[1; 0]] [[2]] 1 [[0; 1]] [[0]] 0 [1; 1]); auto; [unfold pl_lin_grad, quad, mv, dot; cbn; ring|].
    apply pl_lin_true; auto using sq1.
Qed.
(** it is right exactly when alpha = 0 or J acts as the identity on U^T y *)
Theorem pl_lin_when : forall us J alpha ups Jp alphap y, length ups = length us -> length J = length us -> (alpha = 0 \/ mv J (mv us y) = mv us y) ->
  pl_lin us J alpha ups Jp alphap y = pl_lin_grad us J alpha ups Jp alphap y.
Proof.
  intros us J alpha ups Jp alphap y L LJ [->|E]; unfold pl_lin, pl_lin_grad; rewrite (dot_comm (mv J (mv us y))); [ring|]. rewrite E. ring.
Qed.
Example ex_pl : eigh_ok 1 eigh1 /\ Forall (dimP 2) [[1; 0]] /\ orthonormal [[1; 0]] /\ pl_feasible 2 [[1; 0]] [[0; 0]; [1; 1]] (vscale (/ 1) [0; 1]) (map (vscale (/ 1)) [[1; 0]]) (0 / 1) [[1]] 0 /\
  pl_signs_fine eigh1 2 [[1; 0]] [[1]] [[1; 0]] 1 /\ pl_fit eigh1 2 [[1; 0]] [[1]] 0 [[0; 0]; [1; 1]] [0; 1] [[1; 0]] 1 = ([[1; 0]], [1], 0) /\ qr_ok 2 [[1; 0]] [[1; 0]; [0; 1]].
Proof.
  assert (O2 : onb 2 [[1; 0]; [0; 1]]).
  { split; auto. split; [repeat constructor|]. intros a b Ha Hb. cbn [length] in *. destruct a as [|[|]], b as [|[|]]; try lia; cbn [nth Nat.eqb]; unfold dot; cbn; ring. }
  split; [apply ex_eigh1|]. split; [repeat constructor|]. split; [intros [|] [|] Ha Hb; simpl in Ha, Hb; try lia; unfold dot; cbn; ring|]. split; [|split; [|split]].
  - split; [apply sq1|]. split; [intros i j Hi Hj; simpl in Hi, Hj; assert (i = 0 /\ j = 0)%nat as [-> ->] by lia; auto|]. split; [intros [|x [|]] Hx; try discriminate; rewrite quad1; nra|]. split; [lra|]. split; [discriminate|]. split.
    + intros i j Hij. simpl in Hij. assert (i = 0 /\ j = 1)%nat as [-> ->] by lia. unfold pl_rhs, vget, quad, mv, dot. cbn. replace (/ 1 * 0 - / 1 * 1) with (-1) by field. rewrite Rabs_left by lra. lra.
    + intros g [<-|[]] [|x [|x2 [|]]] Hx; try discriminate. unfold pl_rhs, quad, mv, dot. cbn. rewrite Rinv_1. nra.
  - right. intros v [<-|[]]. unfold mean_slope, dot. cbn. rewrite Rinv_1. lra.
  - unfold pl_fit, eigh1, fix_signs, signs_grads, scale_cols, mget, vget, dot. cbn. rewrite Rinv_1. match goal with |- context [sgn ?t] => replace t with 1 by field end.
    unfold sgn. replace (Rltb 0 1) with true by (symmetry; apply Rltb_true; lra). repeat f_equal; ring.
  - split; auto. intros [|k] j Hk Hj; simpl in Hk; [|lia]. assert (j = 1%nat) by lia. subst. unfold dot. cbn. ring.
Qed.
(** the steps of _optimize stay on the manifold of orthonormal bases, and start at U *)
Theorem pl_geo_manifold : forall m us ds ys s zs t, Forall (dimP m) us -> orthonormal us -> length ds = length us -> svd_post m ds ys s zs -> (forall u d, In u us -> In d ds -> dot u d = 0) ->
  orthonormal (pl_geo m us ys s zs t) /\ length (pl_geo m us ys s zs t) = length us /\ Forall (dimP m) (pl_geo m us ys s zs t) /\ pl_geo m us ys s zs 0 = us.
Proof.
  intros m us ds ys s zs t FU OU LD SV TG. destruct (pl_geo_orthonormal m us ds ys s zs t FU OU LD SV TG) as [A [B C]]. split; auto. split; auto. split; auto. apply (pl_geo_start m us ds); auto.
Qed.
Example ex_svd : svd_post 2 [[0; 3]] [[0; 1]] [3] [[1]] /\ forall u d, In u [[1; 0]] -> In d [[0; 3]] -> dot u d = 0.
Proof.
  split; [|intros u d [<-|[]] [<-|[]]; unfold dot; cbn; ring]. split; auto. split; [repeat constructor|]. split; [intros [|] [|] Ha Hb; simpl in Ha, Hb; try lia; unfold dot; cbn; ring|]. split; auto. split; [apply onb1|].
  intros [|c] Hc; simpl in Hc; [|lia]. cbn. repeat f_equal; ring.
Qed.

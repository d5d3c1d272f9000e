(** local_linear, local_linear_grads (local_linear.py 110-197) and OuterProductGradient.fit (opg.py 85-134) on affine data. *)
Require Import Reals List Bool Arith ZArith Lia Lra Psatz.
From Verif Require Import RVec Num Sums DomMoreModel BasisModel SweepProofs HullProofs HullIneqProofs ArnoldiMoreProofs MatLib SpecProofs LipModel LipFitProofs GrassLib SubModel ActiveProofs.
Import ListNotations.
Local Open Scope R_scope.

(* ---------- specification ---------- *)
Definition affine_data (a : vec) (c : R) (X : mat) (fX : vec) : Prop :=
  length fX = length X /\ forall i, (i < length X)%nat -> vget fX i = c + dot a (nth i X []).
(** the points are not contained in a hyperplane *)
Definition spanning (m : nat) (X : mat) : Prop :=
  Forall (fun x => length x = m) X /\ forall v0 v, length v = m -> (forall x, In x X -> v0 + dot v x = 0) -> v0 = 0 /\ v = vzero m.

Lemma nth_rep : forall (A : Type) (x d : A) n i, (i < n)%nat -> nth i (repeat x n) d = x.
Proof. induction n; intros [|i] H; simpl; auto; try lia. apply IHn. lia. Qed.
Lemma vscale_vscale : forall a b x, vscale a (vscale b x) = vscale (a * b) x.
Proof. intros a b x. unfold vscale. rewrite map_map. apply map_ext. intros. ring. Qed.
Lemma vzero_length : forall m, length (vzero m) = m.
Proof. intros. apply repeat_length. Qed.
Lemma ll_sw_len : forall b d, length (ll_sw b d) = length d.
Proof. intros. unfold ll_sw. apply map_length. Qed.
Lemma ll_sw_pos : forall b d i, (i < length d)%nat -> 0 < vget (ll_sw b d) i.
Proof.
  intros b d i Hi. unfold ll_sw, vget. rewrite nth_indep with (d' := (fun a => exp (- (1 / 2) * b * a)) 0) by (rewrite map_length; auto).
  rewrite (map_nth (fun a => exp (- (1 / 2) * b * a))). apply exp_pos.
Qed.
Lemma sqdist_len : forall X x, length (sqdist X x) = length X.
Proof. intros. unfold sqdist. apply map_length. Qed.
Lemma norm2sq_0_get : forall x i, norm2sq x = 0 -> vget x i = 0.
Proof. intros x i H. apply norm2sq_zero in H. rewrite Forall_forall in H. destruct (Nat.lt_ge_cases i (length x)); [apply H, nth_In; auto|apply vget_over; auto]. Qed.
Lemma vget_mv_scaled : forall sw Y v i, length sw = length Y -> (i < length Y)%nat -> vget (mv (zipw vscale sw Y) v) i = vget sw i * dot (nth i Y []) v.
Proof.
  intros sw Y v i L Hi. rewrite mv_get by (rewrite zipw_length; auto; lia). rewrite (zipw_nth R vec vec vscale sw Y i 0 [] []) by lia. fold (vget sw i). apply dot_vscale_l.
Qed.
(** the weighted least squares problem at one point has the true coefficients as its only solution *)
Lemma ll_coef_affine : forall lstsq m X fX sw a c, lstsq_ok (m + 1) lstsq -> length a = m -> affine_data a c X fX -> spanning m X ->
  length sw = length X -> (forall i, (i < length X)%nat -> 0 < vget sw i) -> ll_coef lstsq m X fX sw = c :: a.
Proof.
  intros lstsq m X fX sw a c LS La [Lf AD] [FX SP] Lw Pw. unfold ll_coef.
  assert (LY : length (map ll_row X) = length X) by apply map_length.
  assert (LA : length (zipw vscale sw (map ll_row X)) = length X) by (rewrite zipw_length; lia).
  assert (LV : length (vmul sw fX) = length X) by (rewrite vmul_length; lia).
  assert (NR : forall i, (i < length X)%nat -> nth i (map ll_row X) [] = 1 :: nth i X []).
  { intros i Hi. rewrite nth_indep with (d' := ll_row []) by lia. rewrite map_nth. auto. }
  assert (Z0 : norm2sq (vsub (mv (zipw vscale sw (map ll_row X)) (c :: a)) (vmul sw fX)) = 0).
  { unfold norm2sq. rewrite dot_rsum by auto. apply rsum_zero. intros i Hi. rewrite vsub_length, mv_length in Hi by (rewrite mv_length; lia).
    rewrite vsub_get by (rewrite mv_length; lia). rewrite vget_mv_scaled by lia. rewrite NR by lia. rewrite vmul_get by lia. rewrite AD by lia. rewrite dot_cons, (dot_comm a). ring. }
  destruct (LS (zipw vscale sw (map ll_row X)) (vmul sw fX)) as [r [-> [Lr Mr]]].
  { exists (c :: a). split; [simpl; lia|]. intros. rewrite Z0. apply norm2sq_nonneg. }
  specialize (Mr (c :: a) ltac:(simpl; lia)). rewrite Z0 in Mr. pose proof (norm2sq_nonneg (vsub (mv (zipw vscale sw (map ll_row X)) r) (vmul sw fX))) as P.
  assert (Z1 : norm2sq (vsub (mv (zipw vscale sw (map ll_row X)) r) (vmul sw fX)) = 0) by lra.
  destruct r as [|r0 r]; [simpl in Lr; lia|]. assert (Lr' : length r = m) by (simpl in Lr; lia).
  destruct (SP (r0 - c) (vsub r a)) as [E0 E1].
  - rewrite vsub_length; lia.
  - intros x Ix. apply In_nth with (d := []) in Ix. destruct Ix as [i [Hi <-]].
    pose proof (norm2sq_0_get _ i Z1) as G. rewrite vsub_get in G by (rewrite mv_length; lia). rewrite vget_mv_scaled in G by lia. rewrite NR in G by auto. rewrite vmul_get in G by lia. rewrite AD in G by auto.
    rewrite dot_cons in G. assert (Lx : length (nth i X []) = m) by (rewrite Forall_forall in FX; apply FX, nth_In; auto). rewrite dot_vsub_l by lia. rewrite (dot_comm r).
    assert (vget sw i * (1 * r0 + dot (nth i X []) r - (c + dot a (nth i X []))) = 0) by lra. apply Rmult_integral in H. pose proof (Pw i Hi). destruct H; lra.
  - f_equal; [lra|]. apply vec_ext; [lia|]. intros i Hi. assert (vget (vsub r a) i = 0) by (rewrite E1; unfold vget, vzero; rewrite nth_repeat; auto). rewrite vsub_get in H by lia. lra.
Qed.

Lemma ll_loop_spec : forall coef Xt A0 A, ll_loop coef Xt A0 = Some A -> length A = length A0 /\ (length Xt <= length A0)%nat /\
  (forall i, (i < length Xt)%nat -> coef (nth i Xt []) = Some (nth i A [])) /\ (forall i, (length Xt <= i)%nat -> nth i A [] = nth i A0 []).
Proof.
  intros coef. induction Xt as [|x Xt IH]; intros A0 A E; simpl in E.
  - injection E as <-. split; auto. split; [simpl; lia|]. split; [simpl; intros; lia|auto].
  - destruct A0 as [|r A0]; [discriminate|]. destruct (coef x) as [v|] eqn:Ev; [|discriminate]. destruct (ll_loop coef Xt A0) as [A'|] eqn:EA; [|discriminate]. simpl in E. injection E as <-.
    destruct (IH A0 A' EA) as [L1 [L2 [N1 N2]]]. split; [simpl; lia|]. split; [simpl; lia|]. split.
    + intros [|i] Hi; simpl; auto. apply N1. simpl in Hi. lia.
    + intros [|i] Hi; simpl in *; [lia|]. apply N2. lia.
Qed.
Lemma ll_loop_some : forall coef Xt A0, (length Xt <= length A0)%nat -> (forall x, In x Xt -> coef x <> None) -> exists A, ll_loop coef Xt A0 = Some A.
Proof.
  intros coef. induction Xt as [|x Xt IH]; intros A0 L H; simpl; eauto. destruct A0 as [|r A0]; [simpl in L; lia|]. destruct (coef x) as [v|] eqn:E; [|exfalso; apply (H x); simpl; auto].
  destruct (IH A0 ltac:(simpl in L; lia)) as [A ->]; [intros; apply H; simpl; auto|]. simpl. eauto.
Qed.
Definition points (X : mat) (Xt : option mat) : mat := match Xt with Some Z => Z | None => X end.

(** on affine data every requested row holds the exact coefficients, whatever the bandwidths *)
Theorem ll_affine : forall pb lstsq m X fX perp bw Xt A a c, lstsq_ok (m + 1) lstsq -> length a = m -> affine_data a c X fX -> spanning m X ->
  local_linear pb lstsq m X fX perp bw Xt = Some A -> forall i, (i < length (points X Xt))%nat -> nth i A [] = c :: a.
Proof.
  intros pb lstsq m X fX perp bw Xt A a c LS La AD SP E i Hi. unfold local_linear in E. destruct (Nat.eqb (length fX) (length X)); [|discriminate]. simpl in E.
  destruct (ll_beta pb (length X) m perp bw) as [beta|]; [|discriminate]. fold (points X Xt) in E. apply ll_loop_spec in E. destruct E as [_ [_ [N1 _]]]. specialize (N1 i Hi).
  destruct (beta (sqdist X (nth i (points X Xt) []))) as [b|]; [|discriminate]. injection N1 as <-. apply ll_coef_affine; auto.
  - rewrite ll_sw_len, sqdist_len. auto.
  - intros j Hj. apply ll_sw_pos. rewrite sqdist_len. auto.
Qed.
(** the shape of the result does not depend on the points asked for: always one row per sample, the surplus rows are zero *)
Theorem ll_shape : forall pb lstsq m X fX perp bw Xt A, local_linear pb lstsq m X fX perp bw Xt = Some A ->
  length A = length X /\ (length (points X Xt) <= length X)%nat /\ forall i, (length (points X Xt) <= i < length X)%nat -> nth i A [] = vzero (m + 1).
Proof.
  intros pb lstsq m X fX perp bw Xt A E. unfold local_linear in E. destruct (Nat.eqb (length fX) (length X)); [|discriminate]. simpl in E.
  destruct (ll_beta pb (length X) m perp bw) as [beta|]; [|discriminate]. fold (points X Xt) in E. apply ll_loop_spec in E. destruct E as [L1 [L2 [_ N2]]]. rewrite repeat_length in L1, L2.
  split; auto. split; auto. intros i Hi. rewrite N2 by lia. apply nth_rep. lia.
Qed.
(** with a given bandwidth it returns whenever at most as many points are asked for as there are samples *)
Theorem ll_returns : forall pb lstsq m X fX b Xt, length fX = length X -> (length (points X Xt) <= length X)%nat ->
  exists A, local_linear pb lstsq m X fX None (Some (BwVal b)) Xt = Some A.
Proof.
  intros pb lstsq m X fX b Xt L H. unfold local_linear. rewrite L, Nat.eqb_refl. simpl. fold (points X Xt). apply ll_loop_some; [rewrite repeat_length; auto|discriminate].
Qed.
(** the gradients *)
Theorem ll_grads_affine : forall pb lstsq m X fX b a c, lstsq_ok (m + 1) lstsq -> length a = m -> affine_data a c X fX -> spanning m X ->
  local_linear_grads pb lstsq m X fX None (Some (BwVal b)) None = Some (repeat a (length X)).
Proof.
  intros pb lstsq m X fX b a c LS La AD SP. pose proof AD as [Lf _]. destruct (ll_returns pb lstsq m X fX b None Lf) as [A E]; [simpl; lia|]. unfold local_linear_grads. rewrite E. simpl. f_equal.
  destruct (ll_shape _ _ _ _ _ _ _ _ _ E) as [L1 _]. apply nth_ext with (d := []) (d' := []); [rewrite map_length, repeat_length; auto|].
  intros i Hi. rewrite map_length in Hi. rewrite (nth_indep _ [] (tl (@nil R))) by (rewrite map_length; auto). rewrite map_nth.
  rewrite (ll_affine pb lstsq m X fX None (Some (BwVal b)) None A a c LS La AD SP E) by (simpl; lia). simpl. symmetry. apply nth_rep. lia.
Qed.

(** data 2 x + 1 at 0, 1, 2: one gradient asked for, three returned, two of them zero *)
Lemma line3_span : spanning 1 [[0]; [1]; [2]].
Proof.
  split; [repeat constructor|]. intros v0 v Lv H. destruct v as [|v1 [|v2 v]]; simpl in Lv; try lia.
  pose proof (H [0] ltac:(simpl; auto)) as H0. pose proof (H [1] ltac:(simpl; auto)) as H1. rewrite dot_cons, dot_nil_l in H0, H1. split; [lra|]. unfold vzero. simpl. f_equal. lra.
Qed.
Lemma line3_affine : affine_data [2] 1 [[0]; [1]; [2]] [1; 3; 5].
Proof. split; auto. intros [|[|[|i]]] Hi; simpl in Hi; try lia; unfold vget; simpl; rewrite dot_cons, dot_nil_l; lra. Qed.
Example ll_case : length [2] = 1%nat /\ affine_data [2] 1 [[0]; [1]; [2]] [1; 3; 5] /\ spanning 1 [[0]; [1]; [2]].
Proof. split; auto. split; [apply line3_affine|apply line3_span]. Qed.
Theorem ll_rows_refuted : exists m X fX a c Xt b, affine_data a c X fX /\ spanning m X /\ length a = m /\
  forall pb lstsq, lstsq_ok (m + 1) lstsq -> exists G, local_linear_grads pb lstsq m X fX None (Some (BwVal b)) (Some Xt) = Some G /\
    length G <> length Xt /\ nth 0 G [] = a /\ In (vzero m) G /\ a <> vzero m.
Proof.
  exists 1%nat, [[0]; [1]; [2]], [1; 3; 5], [2], 1, [[1]], 1. split; [apply line3_affine|]. split; [apply line3_span|]. split; auto. intros pb lstsq LS.
  destruct (ll_returns pb lstsq 1 [[0]; [1]; [2]] [1; 3; 5] 1 (Some [[1]])) as [A E]; [auto|simpl; lia|]. unfold local_linear_grads. rewrite E. simpl. eexists. split; [reflexivity|].
  destruct (ll_shape _ _ _ _ _ _ _ _ _ E) as [L1 [_ Z]]. pose proof (ll_affine _ _ _ _ _ _ _ _ _ [2] 1 LS eq_refl line3_affine line3_span E 0%nat ltac:(simpl; lia)) as N0.
  rewrite map_length, L1. split; [simpl; lia|]. simpl in Z. pose proof (Z 1%nat ltac:(lia)) as Z1. destruct A as [|r0 [|r1 A]]; simpl in L1; try lia. simpl in N0, Z1. rewrite N0, Z1. split; [auto|]. split; [simpl; auto|].
  unfold vzero. simpl. intros Q. injection Q. lra.
Qed.
(** more points than samples: IndexError *)
Theorem ll_many_refuted : exists m X fX a c Xt, affine_data a c X fX /\ spanning m X /\ length a = m /\
  forall pb lstsq b, local_linear pb lstsq m X fX None (Some (BwVal b)) (Some Xt) = None.
Proof.
  exists 1%nat, [[0]; [1]; [2]], [1; 3; 5], [2], 1, [[0]; [1]; [2]; [3]]. split; [apply line3_affine|]. split; [apply line3_span|]. split; auto.
Qed.
(** the default perplexity min(m+1, M) is refused when there are only m+1 samples, although these determine the model *)
Theorem ll_default_refuted : exists m X fX a c, affine_data a c X fX /\ spanning m X /\ length a = m /\ length X = (m + 1)%nat /\
  forall pb lstsq Xt, local_linear pb lstsq m X fX None None Xt = None.
Proof.
  exists 1%nat, [[0]; [1]], [1; 3], [2], 1. split; [|split; [|split; [|split]]]; auto.
  - split; auto. intros [|[|i]] Hi; simpl in Hi; try lia; unfold vget; simpl; rewrite dot_cons, dot_nil_l; lra.
  - split; [repeat constructor|]. intros v0 v Lv H. destruct v as [|v1 [|v2 v]]; simpl in Lv; try lia.
    pose proof (H [0] ltac:(simpl; auto)) as H0. pose proof (H [1] ltac:(simpl; auto)) as H1. rewrite dot_cons, dot_nil_l in H0, H1. split; [lra|]. unfold vzero. simpl. f_equal. lra.
  - intros pb lstsq Xt. unfold local_linear. cbn [length Nat.eqb negb]. unfold ll_beta. cbn [Nat.min Nat.add]. replace (Rltb (INR 2) (INR 2)) with false by (symmetry; apply Rltb_false; lra). rewrite andb_false_r. auto.
Qed.

(* ---------- active subspace of constant gradients, OPG ---------- *)
(** all gradients equal to a <> 0: the first column is a/|a| and the first singular value |a|, all others vanish *)
Theorem as_rank_one : forall svd m N a U s C, (1 <= N)%nat -> length a = m -> norm2 a <> 0 ->
  (exists vs, svd_full m (as_cols (as_weights (repeat a N) None) (repeat a N)) (fst (svd (as_cols (as_weights (repeat a N) None) (repeat a N)))) (snd (svd (as_cols (as_weights (repeat a N) None) (repeat a N)))) vs) ->
  as_fit svd m (repeat a N) None = (U, s, C) ->
  length U = m /\ (1 <= m)%nat /\ nth 0 U [] = vscale (/ norm2 a) a /\ vget s 0 = norm2 a /\ forall k, (1 <= k < m)%nat -> nth k U [] = vzero m /\ vget s k = 0.
Proof.
  intros svd m N a U s C HN La Na SV E.
  assert (FG : Forall (fun g => length g = m) (repeat a N)) by (apply Forall_forall; intros g Ig; apply repeat_spec in Ig; subst; auto).
  assert (HW : forall v, None = Some v -> length v = length (repeat a N) /\ Forall (fun x => 0 < x) v) by discriminate.
  assert (HW' : forall v, None = Some v -> length v = length (repeat a N) /\ Forall (fun x => 0 <= x) v) by discriminate.
  destruct (as_zero_columns svd m (repeat a N) None U s C FG HW SV E) as [ZC _].
  destruct (as_C_correct svd m (repeat a N) None U s C FG HW' SV E) as [Ls [SQ [CE [Ps Ds]]]].
  destruct (as_U_partial svd m (repeat a N) None U s C FG HW' SV E) as [LU _].
  destruct SV as [vs SV]. unfold as_fit in E. destruct (svd (as_cols (as_weights (repeat a N) None) (repeat a N))) as [us s0] eqn:ES. simpl fst in SV. simpl snd in SV. injection E as EU Es EC.
  set (w := as_weights (repeat a N) None) in *. pose proof SV as [OU _]. pose proof OU as [LUs [FU OR]].
  assert (Lw : length w = length (repeat a N)) by (unfold w, as_weights; rewrite !repeat_length; auto).
  assert (NN : 0 < INR N) by (apply lt_0_INR; lia).
  assert (Pw : Forall (fun x => 0 <= x) w). { apply Forall_forall. intros x Ix. unfold w, as_weights in Ix. apply repeat_spec in Ix. rewrite Ix, repeat_length. left. apply Rmult_lt_0_compat; [lra|apply Rinv_0_lt_compat; auto]. }
  assert (DA : forall j k, (j < m)%nat -> (k < m)%nat -> dot (nth j us []) a * dot (nth k us []) a = if Nat.eqb j k then vget s j ^ 2 else 0).
  { intros j k Hj Hk. rewrite <- Es. rewrite <- (diag_avg m w (repeat a N) us s0 vs Lw Pw SV j k Hj Hk). rewrite repeat_length.
    rewrite (rsum_ext N _ (fun _ => / INR N * (dot (nth j us []) a * dot (nth k us []) a))).
    - rewrite rsum_const. field. lra.
    - intros l Hl. rewrite !(nth_rep vec) by auto. unfold w, as_weights, vget. rewrite repeat_length, (nth_rep R) by auto. unfold Rdiv. ring. }
  assert (NP : 0 < norm2 a) by (pose proof (norm2_nonneg a); lra).
  assert (PA : norm2sq a = rsum m (fun k => dot (nth k us []) a * dot (nth k us []) a)) by (apply parseval; auto).
  assert (M1 : (1 <= m)%nat). { destruct m; [|lia]. destruct a; [|simpl in La; lia]. exfalso. apply Na. unfold norm2, norm2sq. rewrite dot_nil_l. apply sqrt_0. }
  (* s_k = 0 for k >= 1 *)
  assert (SZ : forall k, (1 <= k < m)%nat -> vget s k = 0).
  { intros k Hk. destruct (Req_dec (vget s k) 0) as [Z|Z]; auto. exfalso. pose proof (DA 0%nat k ltac:(lia) ltac:(lia)) as D. destruct (Nat.eqb_spec 0 k); [lia|]. pose proof (DA k k ltac:(lia) ltac:(lia)) as Dk. rewrite Nat.eqb_refl in Dk. pose proof (DA 0%nat 0%nat ltac:(lia) ltac:(lia)) as D0. simpl in D0.
    pose proof (Ds 0%nat k ltac:(lia)) as Dsk. pose proof (Ps k ltac:(lia)). assert (0 < vget s k) by lra. apply Rmult_integral in D. destruct D as [D|D]; rewrite D in *; nra. }
  assert (S0 : vget s 0 = norm2 a).
  { rewrite (rsum_single m 0) in PA; [|lia|].
    - pose proof (DA 0%nat 0%nat ltac:(lia) ltac:(lia)) as D0. simpl in D0. rewrite D0 in PA. pose proof (norm2_sq a) as Q. pose proof (Ps 0%nat ltac:(lia)). pose proof (norm2_nonneg a). assert ((vget s 0 - norm2 a) * (vget s 0 + norm2 a) = 0) by (simpl in PA; lra). apply Rmult_integral in H1. destruct H1; lra.
    - intros k Hk Nk. rewrite DA by lia. rewrite Nat.eqb_refl, SZ by lia. ring. }
  split; auto. split; auto. split; [|split; auto].
  - rewrite <- EU. rewrite sg_cols_nth by lia.
    assert (EA : a = vscale (dot (nth 0 us []) a) (nth 0 us [])).
    { assert (L0 : length (nth 0 us []) = m) by (apply (onb_row m); auto; lia). apply vec_ext; [rewrite vscale_length; lia|]. intros i Hi. rewrite vscale_get by lia.
      replace (vget a i) with (vget (lincomb m us (mv us a)) i) by (rewrite (onb_expand m us a OU La); auto). rewrite MatLib.lincomb_get by (auto; try apply mv_length; lia). rewrite LUs. rewrite (rsum_single m 0); [|lia|].
      - rewrite mv_get by lia. auto.
      - intros k Hk Nk. rewrite mv_get by lia. assert (dot (nth k us []) a = 0). { pose proof (DA k k Hk Hk) as D. rewrite Nat.eqb_refl, SZ in D by lia. replace (0 ^ 2) with 0 in D by ring. apply Rmult_integral in D. tauto. } rewrite H. ring. }
    set (t := dot (nth 0 us []) a) in *. assert (T2 : t * t = norm2 a * norm2 a). { pose proof (DA 0%nat 0%nat ltac:(lia) ltac:(lia)) as D0. simpl in D0. fold t in D0. rewrite S0 in D0. lra. }
    assert (MS : mean_slope (nth 0 us []) (repeat a N) = t).
    { unfold mean_slope. rewrite repeat_length. assert (V : vsum (map (fun g => dot g (nth 0 us [])) (repeat a N)) = INR N * t). { unfold t. clear. induction N; [simpl; ring|]. cbn [repeat map]. rewrite vsum_cons, IHN, S_INR, (dot_comm a). ring. } rewrite V. field. lra. }
    rewrite MS. assert (T0 : t <> 0) by nra. rewrite EA at 2. rewrite vscale_vscale. f_equal.
    unfold sgn. destruct (Rltb 0 t) eqn:B1.
    + apply Rltb_true in B1. assert (t = norm2 a) by nra. rewrite H. field. auto.
    + apply Rltb_false in B1. destruct (Rltb t 0) eqn:B2; [|apply Rltb_false in B2; lra]. apply Rltb_true in B2. assert (t = - norm2 a) by nra. rewrite H. field. auto.
  - intros k Hk. split; [apply ZC; [lia|]; apply SZ; auto|apply SZ; auto].
Qed.

(** exact solvers for the OPG theorems *)
Definition svd_exact (m : nat) (svd : list vec -> list vec * vec) : Prop :=
  forall cols, Forall (fun c => length c = m) cols -> exists vs, svd_full m cols (fst (svd cols)) (snd (svd cols)) vs.
Definition qr_exact (m : nat) (qr : list vec -> list vec) : Prop :=
  forall cols, length cols = m -> Forall (fun c => length c = m) cols -> exists r, qr_post m cols (qr cols) r.
Lemma as_cols_lens : forall m w grads, length w = length grads -> Forall (fun g => length g = m) grads -> Forall (fun c => length c = m) (as_cols w grads).
Proof.
  intros m w grads L F. apply Forall_forall. intros c Ic. apply In_nth with (d := []) in Ic. destruct Ic as [i [Hi <-]]. rewrite as_cols_len in Hi by auto. rewrite as_cols_nth by auto.
  rewrite vscale_length. rewrite Forall_forall in F. apply F, nth_In. auto.
Qed.
Lemma rep_lens : forall m N (a : vec), length a = m -> Forall (fun g => length g = m) (repeat a N).
Proof. intros. apply Forall_forall. intros g Ig. apply repeat_spec in Ig. subst. auto. Qed.
Lemma spanning_nonempty : forall m X, spanning m X -> (1 <= length X)%nat.
Proof. intros m X [_ SP]. destruct X; [|simpl; lia]. destruct (SP 1 (vzero m) (vzero_length m)) as [Z _]; [simpl; tauto|lra]. Qed.

(** without standardization OPG finds the direction of a linear function *)
Theorem opg_linear : forall pb lstsq svd qr m X fX b a c U s C, lstsq_ok (m + 1) lstsq -> svd_exact m svd -> length a = m -> norm2 a <> 0 -> affine_data a c X fX -> spanning m X ->
  opg_fit (fun Z => local_linear_grads pb lstsq m Z fX None (Some (BwVal b)) None) svd qr m false X = Some (U, s, C) ->
  nth 0 U [] = vscale (/ norm2 a) a /\ vget s 0 = norm2 a /\ forall k, (1 <= k < m)%nat -> nth k U [] = vzero m /\ vget s k = 0.
Proof.
  intros pb lstsq svd qr m X fX b a c U s C LS SV La Na AD SP E. unfold opg_fit in E. rewrite (ll_grads_affine pb lstsq m X fX b a c LS La AD SP) in E.
  destruct (as_fit svd m (repeat a (length X)) None) as [[U' s'] C'] eqn:EF. injection E as <- <- <-. pose proof (spanning_nonempty m X SP) as HN.
  destruct (as_rank_one svd m (length X) a U' s' C' HN La Na) as [_ [_ [E1 [E2 E3]]]]; auto.
  apply SV. apply as_cols_lens; [unfold as_weights; rewrite !repeat_length; auto|apply rep_lens; auto].
Qed.

(* standardized samples *)
Lemma opg_mean_len : forall m X, length (opg_mean m X) = m. Proof. intros. unfold opg_mean. rewrite map_length, seq_length. auto. Qed.
Lemma opg_std_len : forall m X, length (opg_std m X) = m. Proof. intros. unfold opg_std. rewrite map_length, seq_length. auto. Qed.
Lemma vinv_len : forall x : vec, length (map Rinv x) = length x. Proof. intros. apply map_length. Qed.
Lemma vinv_get : forall (x : vec) k, (k < length x)%nat -> vget (map Rinv x) k = / vget x k.
Proof. intros x k H. unfold vget. rewrite nth_indep with (d' := / 0) by (rewrite map_length; auto). apply (map_nth Rinv). Qed.
Lemma spanning_std : forall m X k, spanning m X -> (k < m)%nat -> 0 < vget (opg_std m X) k.
Proof.
  intros m X k SP Hk. pose proof (spanning_nonempty m X SP) as HN. unfold opg_std. rewrite vget_map_seq by auto. unfold pstd. apply sqrt_lt_R0.
  set (mu := mean (col X k)). assert (LX : 0 < INR (length (col X k))) by (rewrite col_len; apply lt_0_INR; lia).
  unfold mean at 1. rewrite map_length. apply Rmult_lt_0_compat; [|apply Rinv_0_lt_compat; auto].
  rewrite vsum_rsum, map_length, col_len.
  assert (G : forall i, (i < length X)%nat -> vget (map (fun a => (a - mu) * (a - mu)) (col X k)) i = (vget (nth i X []) k - mu) * (vget (nth i X []) k - mu)).
  { intros i Hi. unfold vget at 1. rewrite nth_indep with (d' := (fun a => (a - mu) * (a - mu)) 0) by (rewrite map_length, col_len; auto). rewrite (map_nth (fun a => (a - mu) * (a - mu))). fold (vget (col X k) i). rewrite col_get by auto. auto. }
  rewrite (rsum_ext _ _ _ G). assert (P : 0 <= rsum (length X) (fun i => (vget (nth i X []) k - mu) * (vget (nth i X []) k - mu))) by (apply rsum_nonneg; intros; apply Rle_0_sqr).
  destruct P as [P|P]; auto. exfalso. symmetry in P. pose proof (rsum_zero_inv _ _ (fun i _ => Rle_0_sqr (vget (nth i X []) k - mu)) P) as Z.
  destruct SP as [FX SP]. destruct (SP (- mu) (unitv m k) (unitv_len m k)) as [_ V].
  - intros x Ix. apply In_nth with (d := []) in Ix. destruct Ix as [i [Hi <-]]. rewrite Forall_forall in FX. rewrite dot_comm, dot_unitv by (auto; apply FX, nth_In; auto). specialize (Z i Hi). apply Rmult_integral in Z. destruct Z; lra.
  - assert (vget (unitv m k) k = 1) by (rewrite unitv_get by auto; rewrite Nat.eqb_refl; auto). rewrite V in H. rewrite vzero_get in H. lra.
Qed.
Lemma opg_z_spec : forall m X, Forall (fun x => length x = m) X -> length (opg_z m X) = length X /\
  forall i, (i < length X)%nat -> nth i (opg_z m X) [] = vmul (vsub (nth i X []) (opg_mean m X)) (map Rinv (opg_std m X)).
Proof.
  intros m X FX. unfold opg_z. split; [apply map_length|]. intros i Hi. rewrite (nth_indep _ [] ((fun x => vmul (vsub x (opg_mean m X)) (map Rinv (opg_std m X))) [])) by (rewrite map_length; auto). rewrite (map_nth (fun x => vmul (vsub x (opg_mean m X)) (map Rinv (opg_std m X)))). auto.
Qed.
Lemma dot_scaled : forall m a s x, length a = m -> length s = m -> length x = m -> (forall k, (k < m)%nat -> vget s k <> 0) -> dot (vmul s a) (vmul x (map Rinv s)) = dot a x.
Proof.
  intros m a s x La Ls Lx Hs. rewrite !dot_rsum by (rewrite ?vmul_length, ?vinv_len; rewrite ?vinv_len; lia). rewrite vmul_length by lia. replace (length s) with m by lia. replace (length a) with m by lia.
  apply rsum_ext. intros k Hk. rewrite !vmul_get by (rewrite ?vinv_len; lia). rewrite vinv_get by lia. field. auto.
Qed.
Lemma opg_z_affine : forall m X fX a c, length a = m -> spanning m X -> affine_data a c X fX -> affine_data (vmul (opg_std m X) a) (c + dot a (opg_mean m X)) (opg_z m X) fX.
Proof.
  intros m X fX a c La SP [Lf AD]. pose proof SP as [FX _]. destruct (opg_z_spec m X FX) as [L N]. pose proof (opg_mean_len m X) as Lm. pose proof (opg_std_len m X) as Lsd. split; [lia|]. intros i Hi. rewrite L in Hi.
  assert (Lx : length (nth i X []) = m) by (rewrite Forall_forall in FX; apply FX, nth_In; auto).
  rewrite N, AD by auto. rewrite (dot_scaled m) by (try (intros k Hk; pose proof (spanning_std m X k SP Hk); lra); try (rewrite vsub_length by lia); lia). rewrite dot_vsub_r by lia. ring.
Qed.
Lemma opg_z_spanning : forall m X, spanning m X -> spanning m (opg_z m X).
Proof.
  intros m X SP. pose proof SP as [FX S0]. destruct (opg_z_spec m X FX) as [L N]. pose proof (opg_mean_len m X) as Lm. pose proof (opg_std_len m X) as Lsd. rewrite Forall_forall in FX. split.
  - apply Forall_forall. intros z Iz. apply In_nth with (d := []) in Iz. destruct Iz as [i [Hi <-]]. rewrite L in Hi. rewrite N by auto. assert (length (nth i X []) = m) by (apply FX, nth_In; auto).
    rewrite vmul_length; [rewrite vsub_length; lia|rewrite vsub_length, vinv_len; lia].
  - intros v0 v Lv H. set (g := vmul v (map Rinv (opg_std m X))). assert (Lg : length g = m) by (unfold g; rewrite vmul_length; rewrite ?vinv_len; lia).
    assert (G : forall k, (k < m)%nat -> vget g k = vget v k * / vget (opg_std m X) k) by (intros k Hk; unfold g; rewrite vmul_get by (rewrite ?vinv_len; lia); rewrite vinv_get by lia; auto).
    assert (EV : v = vmul (opg_std m X) g). { apply vec_ext; [rewrite vmul_length; lia|]. intros k Hk. rewrite vmul_get by lia. rewrite G by lia. pose proof (spanning_std m X k SP ltac:(lia)). field. lra. }
    destruct (S0 (v0 - dot g (opg_mean m X)) g Lg) as [Z1 Z2].
    + intros x Ix. apply In_nth with (d := []) in Ix. destruct Ix as [i [Hi <-]]. assert (Lx : length (nth i X []) = m) by (apply FX, nth_In; auto). specialize (H (nth i (opg_z m X) []) ltac:(apply nth_In; lia)).
      rewrite N, EV in H by auto. rewrite (dot_scaled m) in H by (try (intros k Hk; pose proof (spanning_std m X k SP Hk); lra); try (rewrite vsub_length by lia); lia). rewrite dot_vsub_r in H by lia. lra.
    + assert (V : v = vzero m). { rewrite EV, Z2. apply vec_ext; [rewrite vmul_length, vzero_length by (rewrite vzero_length; lia); lia|]. intros k Hk. rewrite vmul_get by (rewrite vzero_length; lia). rewrite !vzero_get. ring. }
      split; auto. rewrite Z2, dot_zero_l in Z1. lra.
Qed.
(** with standardization (the default) the first direction is sqrt(std) * a instead of a: the change of variables is
    undone with std^(-1/2) where it should be std^(-1) *)
Definition sqrt_std (m : nat) (X : mat) (a : vec) : vec := vmul (map sqrt (opg_std m X)) a.
Lemma vsqrt_get : forall (x : vec) k, vget (map sqrt x) k = sqrt (vget x k).
Proof.
  intros x k. unfold vget. rewrite <- (map_nth sqrt). rewrite sqrt_0. auto.
Qed.
Lemma unit_scale : forall t g q, norm2 q = 1 -> norm2 g <> 0 -> vscale t q = g -> q = vscale (t / (norm2 g * norm2 g)) g /\ t * t = norm2 g * norm2 g.
Proof.
  intros t g q Nq Ng E. assert (T : Rabs t = norm2 g) by (rewrite <- E, norm2_vscale, Nq; ring).
  assert (T2 : t * t = norm2 g * norm2 g) by (rewrite <- T; unfold Rabs; destruct (Rcase_abs t); ring). split; auto. rewrite <- T2. rewrite <- E, vscale_vscale. assert (t <> 0) by nra. replace (t / (t * t) * t) with 1 by (field; auto). unfold vscale. rewrite <- (map_id q) at 1. apply map_ext. intros; ring.
Qed.
Theorem opg_standardized : forall pb lstsq svd qr m X fX b a c U s C, lstsq_ok (m + 1) lstsq -> svd_exact m svd -> qr_exact m qr -> length a = m -> norm2 a <> 0 -> affine_data a c X fX -> spanning m X ->
  opg_fit (fun Z => local_linear_grads pb lstsq m Z fX None (Some (BwVal b)) None) svd qr m true X = Some (U, s, C) ->
  nth 0 U [] = vscale (/ norm2 (sqrt_std m X a)) (sqrt_std m X a) /\ vget s 0 = norm2 (vmul (opg_std m X) a).
Proof.
  intros pb lstsq svd qr m X fX b a c U s C LS SV QR La Na AD SP E. unfold opg_fit in E.
  set (d := vmul (opg_std m X) a) in *. pose proof (opg_std_len m X) as Lsd. assert (Ld : length d = m) by (unfold d; rewrite vmul_length; lia). pose proof SP as [FX _]. destruct (opg_z_spec m X FX) as [LZ _].
  rewrite (ll_grads_affine pb lstsq m (opg_z m X) fX b d _ LS Ld (opg_z_affine m X fX a c La SP AD) (opg_z_spanning m X SP)) in E. rewrite LZ in E.
  destruct (as_fit svd m (repeat d (length X)) None) as [[U' s'] C'] eqn:EF. pose proof (spanning_nonempty m X SP) as HN.
  assert (PS : forall k, (k < m)%nat -> 0 < vget (opg_std m X) k) by (intros; apply spanning_std; auto).
  assert (EX : exists k, (k < m)%nat /\ vget a k <> 0).
  { destruct (Exists_dec (fun x => x <> 0) a (fun x => match Req_EM_T x 0 with left e => right (fun n => n e) | right n => left n end)) as [Ex|Nx].
    - apply Exists_exists in Ex. destruct Ex as [x [Ix Nx]]. apply In_nth with (d := 0) in Ix. destruct Ix as [k [Hk <-]]. exists k. split; [lia|auto].
    - exfalso. apply Na. assert (a = vzero m). { apply vec_ext; [rewrite vzero_length; auto|]. intros k Hk. rewrite vzero_get. destruct (Req_EM_T (vget a k) 0); auto. exfalso. apply Nx. apply Exists_exists. exists (vget a k). split; [apply nth_In; auto|auto]. }
      rewrite H. unfold norm2, norm2sq. rewrite dot_zero_l. apply sqrt_0. }
  assert (NZ : forall g : vec, length g = m -> (forall k, (k < m)%nat -> vget a k <> 0 -> vget g k <> 0) -> norm2 g <> 0).
  { intros g Lg Hg Z. destruct EX as [k [Hk Nk]]. apply (Hg k Hk Nk). apply norm2sq_0_get. rewrite <- norm2_sq. rewrite Z. ring. }
  assert (Nd : norm2 d <> 0). { apply NZ; auto. intros k Hk Nk. unfold d. rewrite vmul_get by lia. pose proof (PS k Hk). apply Rmult_integral_contrapositive_currified; lra. }
  set (g := sqrt_std m X a). assert (Lg : length g = m) by (unfold g, sqrt_std; rewrite vmul_length; rewrite ?map_length; lia).
  assert (Gg : forall k, (k < m)%nat -> vget g k = sqrt (vget (opg_std m X) k) * vget a k) by (intros k Hk; unfold g, sqrt_std; rewrite vmul_get by (rewrite ?map_length; lia); rewrite vsqrt_get; auto).
  assert (Ng : norm2 g <> 0). { apply NZ; auto. intros k Hk Nk. rewrite Gg by auto. pose proof (sqrt_lt_R0 _ (PS k Hk)). apply Rmult_integral_contrapositive_currified; lra. }
  destruct (as_rank_one svd m (length X) d U' s' C' HN Ld Nd) as [LU [M1 [E1 [E2 _]]]]; auto.
  { apply SV. apply as_cols_lens; [unfold as_weights; rewrite !repeat_length; auto|apply rep_lens; auto]. }
  destruct (as_U_partial svd m (repeat d (length X)) None U' s' C' (rep_lens m _ d Ld)) as [_ [FU _]]; auto; [discriminate| |].
  { apply SV. apply as_cols_lens; [unfold as_weights; rewrite !repeat_length; auto|apply rep_lens; auto]. }
  set (cols := opg_undo m X U') in *. assert (Lc : length cols = m) by (unfold cols, opg_undo; rewrite map_length; auto).
  assert (Lis : length (map (fun s => / sqrt s) (opg_std m X)) = m) by (rewrite map_length; auto).
  assert (Fc : Forall (fun c => length c = m) cols). { unfold cols, opg_undo. rewrite Forall_map. apply Forall_forall. intros u Iu. rewrite Forall_forall in FU. rewrite vmul_length; rewrite ?(FU u Iu); lia. }
  destruct (QR cols Lc Fc) as [r [Lq [Fq [Oq [Lr QE]]]]]. injection E as <- <- <-. split; auto. destruct (QE 0%nat ltac:(lia)) as [L0 [E0 Z0]].
  set (q := qr cols) in *. assert (Lq0 : length (nth 0 q []) = m) by (rewrite Forall_forall in Fq; apply Fq, nth_In; lia).
  assert (C0 : nth 0 cols [] = vscale (/ norm2 d) g).
  { unfold cols, opg_undo. rewrite (nth_indep _ [] (vmul (map (fun s => / sqrt s) (opg_std m X)) [])) by (rewrite map_length; lia). rewrite map_nth, E1.
    apply vec_ext; [rewrite vmul_length; rewrite ?vscale_length; lia|]. intros k Hk. rewrite vmul_length in Hk by (rewrite ?vscale_length; lia). rewrite Lis in Hk. rewrite vmul_get by (rewrite ?vscale_length; lia). rewrite !vscale_get. rewrite Gg by auto.
    assert (IS : vget (map (fun s => / sqrt s) (opg_std m X)) k = / sqrt (vget (opg_std m X) k)). { unfold vget. rewrite nth_indep with (d' := (fun s => / sqrt s) 0) by (rewrite map_length; lia). apply (map_nth (fun s => / sqrt s)). }
    rewrite IS. unfold d. rewrite vmul_get by lia. pose proof (sqrt_lt_R0 _ (PS k Hk)) as SP0. pose proof (sqrt_sqrt (vget (opg_std m X) k) ltac:(pose proof (PS k Hk); lra)) as SS. set (r0 := sqrt (vget (opg_std m X) k)) in *. rewrite <- SS. fold d. field. lra. }
  assert (Q0 : nth 0 cols [] = vscale (vget (nth 0 r []) 0) (nth 0 q [])).
  { rewrite E0. apply vec_ext; [rewrite lincomb_length by auto; rewrite vscale_length; auto|]. intros i Hi. rewrite lincomb_length in Hi by auto. rewrite MatLib.lincomb_get by (auto; lia). rewrite vscale_get. rewrite (rsum_single _ 0); [auto|lia|].
    intros k Hk Nk. rewrite Z0 by lia. ring. }
  set (t := vget (nth 0 r []) 0) in *. assert (Nq : norm2 (nth 0 q []) = 1). { pose proof (Oq 0%nat 0%nat ltac:(lia) ltac:(lia)) as O. simpl in O. unfold norm2, norm2sq. rewrite O. apply sqrt_1. }
  assert (TG : vscale (t * norm2 d) (nth 0 q []) = g). { rewrite Rmult_comm. rewrite <- vscale_vscale. rewrite <- Q0, C0, vscale_vscale. replace (norm2 d * / norm2 d) with 1 by (field; auto). unfold vscale. rewrite <- (map_id g) at 2. apply map_ext. intros; ring. }
  destruct (unit_scale _ g _ Nq Ng TG) as [QG T2]. set (tt := t * norm2 d) in *.
  rewrite sg_cols_nth by lia.
  assert (DP : 0 < dot d g). { rewrite dot_rsum by lia. rewrite Ld. apply rsum_pos.
    - intros k Hk. unfold d. rewrite vmul_get, Gg by lia. pose proof (PS k Hk). pose proof (sqrt_lt_R0 _ H). assert (0 <= vget a k * vget a k) by apply Rle_0_sqr. assert (0 <= vget (opg_std m X) k * sqrt (vget (opg_std m X) k)) by nra. nra.
    - destruct EX as [k [Hk Nk]]. exists k. split; auto. unfold d. rewrite vmul_get, Gg by lia. pose proof (PS k Hk). pose proof (sqrt_lt_R0 _ H). assert (0 < vget a k * vget a k) by nra. assert (0 < vget (opg_std m X) k * sqrt (vget (opg_std m X) k)) by nra. nra. }
  assert (NG : 0 < norm2 g) by (pose proof (norm2_nonneg g); lra).
  assert (MS : mean_slope (nth 0 q []) (repeat d (length X)) = tt / (norm2 g * norm2 g) * dot d g).
  { unfold mean_slope. rewrite repeat_length. assert (V : forall n, vsum (map (fun g => dot g (nth 0 q [])) (repeat d n)) = INR n * dot d (nth 0 q [])). { clear. induction n; [simpl; ring|]. cbn [repeat map]. rewrite vsum_cons, IHn, S_INR. ring. } rewrite V. rewrite QG at 1. rewrite dot_vscale_r. assert (0 < INR (length X)) by (apply lt_0_INR; lia). field. split; lra. }
  rewrite MS. rewrite QG. rewrite vscale_vscale. f_equal. assert (T0 : tt <> 0) by nra.
  set (kk := dot d g / (norm2 g * norm2 g)). assert (KP : 0 < kk) by (unfold kk; apply Rmult_lt_0_compat; auto; apply Rinv_0_lt_compat; nra). replace (tt / (norm2 g * norm2 g) * dot d g) with (tt * kk) by (unfold kk; field; lra).
  unfold sgn. destruct (Rltb 0 (tt * kk)) eqn:B1.
  - apply Rltb_true in B1. assert (0 < tt) by nra. assert (tt = norm2 g) by nra. rewrite H0. field. lra.
  - apply Rltb_false in B1. destruct (Rltb (tt * kk) 0) eqn:B2; [|apply Rltb_false in B2; assert (tt * kk = 0) by lra; apply Rmult_integral in H; destruct H; lra]. apply Rltb_true in B2. assert (tt < 0) by nra. assert (tt = - norm2 g) by nra. rewrite H0. field. lra.
Qed.
(** when all coordinates have the same spread the direction is right *)
Theorem opg_equal_spread : forall pb lstsq svd qr m X fX b a c U s C t, lstsq_ok (m + 1) lstsq -> svd_exact m svd -> qr_exact m qr -> length a = m -> norm2 a <> 0 -> affine_data a c X fX -> spanning m X ->
  (forall k, (k < m)%nat -> vget (opg_std m X) k = t) ->
  opg_fit (fun Z => local_linear_grads pb lstsq m Z fX None (Some (BwVal b)) None) svd qr m true X = Some (U, s, C) ->
  nth 0 U [] = vscale (/ norm2 a) a.
Proof.
  intros pb lstsq svd qr m X fX b a c U s C t LS SV QR La Na AD SP HT E. destruct (opg_standardized pb lstsq svd qr m X fX b a c U s C LS SV QR La Na AD SP E) as [E1 _]. rewrite E1.
  pose proof (opg_std_len m X) as Lsd.
  assert (G : sqrt_std m X a = vscale (sqrt t) a). { unfold sqrt_std. apply vec_ext; [rewrite vmul_length, vscale_length; rewrite map_length; lia|]. intros k Hk. rewrite vmul_length in Hk by (rewrite map_length; lia). rewrite map_length in Hk. rewrite vmul_get by (rewrite map_length; lia). rewrite vsqrt_get, vscale_get, HT by lia. auto. }
  assert (M1 : (0 < m)%nat). { destruct m; [|lia]. destruct a; [|simpl in La; lia]. exfalso. apply Na. unfold norm2, norm2sq. rewrite dot_nil_l. apply sqrt_0. }
  assert (T : 0 < t) by (rewrite <- (HT 0%nat M1); apply spanning_std; auto). pose proof (sqrt_lt_R0 t T) as ST. rewrite G, vscale_vscale, norm2_vscale. rewrite Rabs_right by lra. f_equal. field. lra.
Qed.
Definition opg_X : mat := [[1; 4]; [1; -4]; [-1; 4]; [-1; -4]].
Lemma opg_X_std : opg_std 2 opg_X = [1; 4] /\ opg_mean 2 opg_X = [0; 0].
Proof.
  unfold opg_std, opg_mean, opg_X. cbn [seq map]. unfold col. cbn [map]. unfold vget. cbn [nth].
  assert (M0 : mean [1; 1; -1; -1] = 0) by (unfold mean; simpl; field). assert (M1 : mean [4; -4; 4; -4] = 0) by (unfold mean; simpl; field).
  split; [|f_equal; [apply M0|f_equal; apply M1]]. unfold pstd. cbn [map]. rewrite M0, M1. f_equal; [|f_equal].
  - replace (mean _) with (1 * 1) by (unfold mean; simpl; field). apply sqrt_square. lra.
  - replace (mean _) with (4 * 4) by (unfold mean; simpl; field). apply sqrt_square. lra.
Qed.
Lemma opg_X_span : spanning 2 opg_X.
Proof.
  split; [repeat constructor|]. intros v0 v Lv H. destruct v as [|v1 [|v2 [|v3 v]]]; simpl in Lv; try lia.
  pose proof (H [1; 4] ltac:(simpl; auto)) as H0. pose proof (H [1; -4] ltac:(simpl; auto)) as H1. pose proof (H [-1; 4] ltac:(simpl; auto)) as H2. rewrite !dot_cons, dot_nil_l in H0, H1, H2. split; [lra|]. unfold vzero. simpl. f_equal; [lra|]. f_equal. lra.
Qed.
Lemma opg_X_affine : affine_data [1; 1] 0 opg_X [5; -3; 3; -5].
Proof. split; auto. intros [|[|[|[|i]]]] Hi; simpl in Hi; try lia; unfold vget; simpl; rewrite !dot_cons, dot_nil_l; lra. Qed.
Example opg_case : length [1; 1] = 2%nat /\ norm2 [1; 1] <> 0 /\ affine_data [1; 1] 0 opg_X [5; -3; 3; -5] /\ spanning 2 opg_X.
Proof.
  split; auto. split; [|split; [apply opg_X_affine|apply opg_X_span]]. intros Z. pose proof (norm2_sq [1; 1]) as Q. rewrite Z in Q. unfold norm2sq in Q. rewrite !dot_cons, dot_nil_l in Q. lra.
Qed.
Theorem opg_standardize_refuted : exists m X fX a c, length a = m /\ norm2 a <> 0 /\ affine_data a c X fX /\ spanning m X /\
  forall pb lstsq svd qr b, lstsq_ok (m + 1) lstsq -> svd_exact m svd -> qr_exact m qr ->
    exists U s C, opg_fit (fun Z => local_linear_grads pb lstsq m Z fX None (Some (BwVal b)) None) svd qr m true X = Some (U, s, C) /\ forall t, nth 0 U [] <> vscale t a.
Proof.
  exists 2%nat, opg_X, [5; -3; 3; -5], [1; 1], 0. destruct opg_case as [L [N [AD SP]]]. split; auto. split; auto. split; auto. split; auto.
  intros pb lstsq svd qr b LS SV QR.
  assert (EX : exists U s C, opg_fit (fun Z => local_linear_grads pb lstsq 2 Z [5; -3; 3; -5] None (Some (BwVal b)) None) svd qr 2 true opg_X = Some (U, s, C)).
  { unfold opg_fit. rewrite (ll_grads_affine pb lstsq 2 (opg_z 2 opg_X) [5; -3; 3; -5] b (vmul (opg_std 2 opg_X) [1; 1]) (0 + dot [1; 1] (opg_mean 2 opg_X)) LS).
    - destruct (as_fit svd 2 _ None) as [[U' s'] C']. eauto.
    - rewrite (proj1 opg_X_std). auto.
    - apply opg_z_affine; auto.
    - apply opg_z_spanning; auto. }
  destruct EX as [U [s [C E]]]. exists U, s, C. split; auto. intros t. destruct (opg_standardized pb lstsq svd qr 2 opg_X _ b _ _ U s C LS SV QR L N AD SP E) as [E1 _]. rewrite E1.
  unfold sqrt_std. rewrite (proj1 opg_X_std). cbn [map]. rewrite sqrt_1. replace (sqrt 4) with 2 by (replace 4 with (2 * 2) by ring; symmetry; apply sqrt_square; lra).
  set (g := vmul [1; 2] [1; 1]). assert (G : g = [1; 2]) by (unfold g, vmul, zipw; simpl; f_equal; [lra|f_equal; lra]). rewrite G.
  assert (NG : norm2 [1; 2] <> 0) by (intros Z; pose proof (norm2_sq [1; 2]) as Q; rewrite Z in Q; unfold norm2sq in Q; rewrite !dot_cons, dot_nil_l in Q; lra).
  intros Q. unfold vscale in Q. cbn [map] in Q. injection Q as Q1 Q2. assert (/ norm2 [1; 2] = 0) by lra. apply (Rinv_neq_0_compat _ NG). auto.
Qed.

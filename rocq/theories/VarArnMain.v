(** The Arnoldi branch of the variable projection: main statements of C135. *)
Require Import Reals Lra Lia List Bool Arith Wf_nat.
From Verif Require Import RVec Num Sums DomModel DomMoreModel SweepProofs HullProofs Deriv BasisModel IndexProofs PolyProofs MatLib SpecProofs GrassLib LipModel LipFitProofs SubModel RidgeModel RidgeProofs TrajProofs PolySpan VarproLib VarproProofs VarAffine GnStep ArnoldiProofs ArnoldiMoreProofs PolyfitModel PolyfitProofs LsqAlg ProjGradProofs VarArnModel VarArnProofs VarArnDeriv.
Import ListNotations.
Local Open Scope R_scope.

(** dimensions match, and the projected samples determine the polynomials of degree p *)
Definition va_pre (p m : nat) (us : list vec) (X : mat) (f : vec) : Prop :=
  (1 <= length us)%nat /\ X <> [] /\ Forall (fun u => length u = m) us /\ Forall (fun x => length x = m) X /\ length f = length X /\ unisolvent p (length us) (map (mv us) X).

Theorem arn_residual_best : forall p m us X f, va_pre p m us X f ->
  exists r c, va_residual p us X f = Some r /\ length r = length X /\ (forall s, (s < length X)%nat -> vget r s = vget f s - poly_of p (length us) c (mv us (nth s X []))) /\
    forall c', norm2sq r <= rsum (length X) (fun s => (vget f s - poly_of p (length us) c' (mv us (nth s X []))) ^ 2).
Proof.
  intros p m us X f (Hn & NE & FU & FX & Lf & US). destruct (va_lsres p us X f Hn NE Lf US) as (r & E & LS). pose proof LS as (Lr & [c C] & _). rewrite map_length in *. exists r, c. split; auto. split; auto. split.
  - intros s Hs. rewrite C by auto. rewrite Y_nth by auto. reflexivity.
  - intro c'. eapply Rle_trans; [apply (lsres_best _ _ _ _ _ LS c')|]. right. rewrite map_length. apply rsum_ext. intros s Hs. rewrite Y_nth by auto. reflexivity.
Qed.
Theorem arn_same_residual : forall p m us X f B' n' us' c', va_pre p m us X f -> basis_ok B' n' -> tb_deg B' = p -> length us' = n' -> Forall (fun u => length u = m) us' -> same_span m us us' ->
  ls_opt (length (indices B')) (vp_V B' us' X) f c' -> va_residual p us X f = Some (vp_residual (vp_V B' us' X) f c').
Proof.
  intros p m us X f B' n' us' c' (Hn & NE & FU & FX & Lf & US) OB D L' FU' SS LS. destruct (va_mono p us X f Hn NE Lf US) as (c & LC & E). rewrite E. f_equal.
  apply (varpro_subspace (monoB p (length us)) B' m (length us) n' us us' X f c c'); auto. apply monoB_ok. auto.
Qed.
Theorem arn_same_subspace : forall p m us us' X f, va_pre p m us X f -> va_pre p m us' X f -> same_span m us us' -> va_residual p us X f = va_residual p us' X f.
Proof.
  intros p m us us' X f PR (Hn & NE & FU & FX & Lf & US) SS. destruct (va_mono p us' X f Hn NE Lf US) as (c & LC & E). rewrite E. apply (arn_same_residual p m us X f (monoB p (length us')) (length us') us' c PR); auto. apply monoB_ok. auto.
Qed.
Lemma pre_frame : forall p m us X f, va_pre p m us X f -> exists Q Rs, frame p (length us) (map (mv us) X) Q Rs.
Proof. intros p m us X f (Hn & NE & FU & FX & Lf & US). apply va_frame; auto. Qed.
Theorem arn_jacobian : forall p m us X f, va_pre p m us X f -> exists J, va_jac p m us X f = Some J /\ length J = (m * length us)%nat /\
  forall ds a, length ds = length us -> Forall (fun u => length u = m) ds -> (a < length X)%nat ->
  derivable_pt_lim (fun t => match va_residual p (line us ds t) X f with Some r => vget r a | None => 0 end) 0 (vget (lincomb (length X) J (flat m ds)) a).
Proof.
  intros p m us X f PR. destruct (pre_frame _ _ _ _ _ PR) as (Q & Rs & FR). destruct PR as (Hn & NE & FU & FX & Lf & US). exists (vjac p m us X f Q Rs). split; [apply (vjac_is p m us X f Hn Lf Q Rs FR)|].
  split; [apply (vjac_cols p m us X f Hn NE Lf Q Rs FR)|]. intros ds a Ld FD Ha. apply (va_derivative p m us X f Hn NE FU FX Lf Q Rs FR ds Ld FD a Ha).
Qed.

(* ---------------- the Jacobian does not depend on the basis ---------------- *)
Lemma lsq_opt : forall N V f, length f = length V -> exists c, lsq N V f = Some c /\ ls_opt N V f c.
Proof.
  intros N V f L. destruct (lsq_post N V f) as (c & E & Lc & H). exists c. split; auto. split; auto. intros c' Lc'. unfold norm2. apply sqrt_le_1_alt. specialize (H c' Lc').
  assert (SW : forall e, norm2sq (vsub f (mv V e)) = norm2sq (vsub (mv V e) f)).
  { intro e. assert (LM : length (mv V e) = length f) by (rewrite mv_length; auto). unfold norm2sq. rewrite !(dot_rs (length f)) by (rewrite vsub_length; lia). apply rsum_ext. intros i Hi. rewrite !vsub_get by lia. ring. }
  rewrite !SW. exact H.
Qed.
Lemma flat_unflat : forall m n q, length q = (m * n)%nat -> flat m (unflat m n q) = q.
Proof.
  intros m n q L. destruct (unflat_len m n q) as [LU _]. apply vec_ext; [rewrite flat_len, LU; lia|]. intros i Hi. rewrite flat_len, LU in Hi. assert (0 < n)%nat by (destruct n; lia).
  assert (Hm : (i / n < m)%nat) by (apply Nat.div_lt_upper_bound; lia). assert (Hl : (i mod n < n)%nat) by (apply Nat.mod_upper_bound; lia).
  assert (E : i = (i / n * n + i mod n)%nat) by (pose proof (Nat.div_mod i n ltac:(lia)); lia). pose proof (flat_get m (unflat m n q) (i / n) (i mod n) Hm ltac:(rewrite LU; auto)) as G. rewrite LU, <- E in G. rewrite G, unflat_ent by auto. rewrite <- E. reflexivity.
Qed.
Lemma col_unit : forall M J i a, Forall (fun v => length v = M) J -> (i < length J)%nat -> (a < M)%nat -> vget (lincomb M J (unit_row_ (length J) i)) a = vget (nth i J []) a.
Proof.
  intros M J i a FJ Hi Ha. rewrite MatLib.lincomb_get by (auto; unfold unit_row_; rewrite map_length, seq_length; auto). rewrite (rsum_single (length J) i); auto.
  - unfold unit_row_. rewrite vget_map_seq by auto. rewrite Nat.eqb_refl. ring.
  - intros j Hj Nj. unfold unit_row_. rewrite vget_map_seq by auto. destruct (Nat.eqb_spec j i); [lia|ring].
Qed.
Theorem arn_same_jacobian : forall p m us X f B ys s zs c, va_pre p m us X f -> basis_ok B (length us) -> tb_deg B = p ->
  svd_mat (length X) (length (indices B)) (vp_V B us X) ys s zs -> (forall k, (k < length s)%nat -> vget s k <> 0) -> ls_opt (length (indices B)) (vp_V B us X) f c ->
  va_jac p m us X f = Some (vp_jac B us m X ys s zs c (vp_residual (vp_V B us X) f c)).
Proof.
  intros p m us X f B ys s zs c PR OB DB SV SN LS. destruct (arn_jacobian p m us X f PR) as (J & EJ & LJ & DJ). rewrite EJ. f_equal.
  destruct (pre_frame _ _ _ _ _ PR) as (Q & Rs & FR). pose proof PR as (Hn & NE & FU & FX & Lf & US).
  assert (FJ : Forall (fun v => length v = length X) J). { pose proof (vjac_is p m us X f Hn Lf Q Rs FR) as E2. rewrite EJ in E2. injection E2 as ->. apply (vjac_cols p m us X f Hn NE Lf Q Rs FR). }
  set (r := vp_residual (vp_V B us X) f c). set (J' := vp_jac B us m X ys s zs c r). assert (LJ' : length J' = (m * length us)%nat) by apply vp_jac_len.
  assert (Lr : length r = length X) by (unfold r, vp_residual; rewrite vsub_length; rewrite ?mv_length, ?vp_V_len; auto). assert (FJ' : Forall (fun v => length v = length X) J') by (apply vp_jac_cols; auto; apply LS).
  set (coef := fun U : list vec => if list_eq_dec (list_eq_dec Req_EM_T) U us then c else match lsq (length (indices B)) (vp_V B U X) f with Some e => e | None => [] end).
  assert (LC : forall U, ls_opt (length (indices B)) (vp_V B U X) f (coef U)).
  { intro U. unfold coef. destruct (list_eq_dec (list_eq_dec Req_EM_T) U us) as [->|]; [exact LS|]. destruct (lsq_opt (length (indices B)) (vp_V B U X) f ltac:(rewrite vp_V_len; auto)) as (e & -> & H). exact H. }
  assert (C0 : coef us = c) by (unfold coef; destruct (list_eq_dec (list_eq_dec Req_EM_T) us us); [auto|contradiction]).
  apply (nth_ext _ _ [] []); [lia|]. intros i Hi. rewrite LJ in Hi. assert (Fi : forall A : list vec, Forall (fun v => length v = length X) A -> length A = (m * length us)%nat -> length (nth i A []) = length X) by (intros A FA LA; apply (proj1 (Forall_forall _ _) FA); apply nth_In; lia).
  apply vec_ext; [rewrite !Fi; auto|]. intros a Ha. rewrite Fi in Ha by auto.
  rewrite <- (col_unit (length X) J i a FJ ltac:(lia) Ha). rewrite <- (col_unit (length X) J' i a FJ' ltac:(lia) Ha). rewrite LJ, LJ'.
  set (ds := unflat m (length us) (unit_row_ (m * length us) i)). destruct (unflat_len m (length us) (unit_row_ (m * length us) i)) as [Ld FD]. fold ds in Ld, FD.
  assert (EF : flat m ds = unit_row_ (m * length us) i) by (apply flat_unflat; unfold unit_row_; rewrite map_length, seq_length; auto). rewrite <- EF.
  specialize (DJ ds a Ld FD Ha).
  assert (D2 : derivable_pt_lim (fun t => let U := line us ds t in vget (vp_residual (vp_V B U X) f (coef U)) a) 0 (vget (lincomb (length X) J' (flat m ds)) a)).
  { pose proof (varpro_jacobian_correct (fun _ => B) coef m (length us) us ds X f ys s zs a eq_refl Ld FU FD FX Lf Ha) as H. cbv beta in H. rewrite C0 in H. fold r J' in H. apply H; auto.
    exists 1. split; [lra|]. intros t _. cbv zeta. split; [exact OB|]. split; auto. }
  assert (D3 : derivable_pt_lim (fun t => let U := line us ds t in vget (vp_residual (vp_V B U X) f (coef U)) a) 0 (vget (lincomb (length X) J (flat m ds)) a)).
  { apply (d_close _ _ _ 0 DJ); [lra|]. generalize (uni_near p m us X f Hn FU FX Lf Q Rs FR ds Ld FD). apply near_imp. intros t U. assert (LL : length (line us ds t) = length us) by (apply line_len; auto).
    rewrite (arn_same_residual p m (line us ds t) X f B (length us) (line us ds t) (coef (line us ds t))); auto.
    - rewrite Rminus_diag_eq by auto. rewrite Rabs_R0. lra.
    - split; [rewrite LL; auto|]. split; auto. split; [apply line_dims; auto|]. split; auto. split; auto. rewrite LL. exact U.
    - apply line_dims; auto.
    - intro; split; auto. }
  exact (uniqueness_limite _ _ _ _ D3 D2).
Qed.

(* ---------------- directions within the subspace ---------------- *)
Lemma dv_poly : forall p us X Q Rs, (1 <= length us)%nat -> X <> [] -> frame p (length us) (map (mv us) X) Q Rs -> forall j, (j < length (index_set p (length us)))%nat ->
  exists c, forall b l, (b < length X)%nat -> (l < length us)%nat -> vget (dv p us X Q Rs b l) j = rsum (length (index_set p (length us))) (fun i => c i * dpsi (monoB p (length us)) (nth i (index_set p (length us)) []) l (mv us (nth b X []))).
Proof.
  intros p us X Q Rs Hn NE FR j Hj. set (n := length us) in *. set (N := length (index_set p n)) in *. pose proof FR as (_ & WF & LQ & FQ & _ & NZ & WV).
  destruct (from_basis p n Hn (fun _ => index_set p n) (look_all p n Hn) Rs WF NZ (fun k => kron j k) N (Nat.le_refl N)) as [c C]. exists c. intros b l Hb Hl. set (y := mv us (nth b X [])). assert (Ly : length y = n) by apply mv_length.
  assert (Yb : nth b (map (mv us) X) [] = y) by (apply Y_nth; auto). set (v := unit_row_ n l). assert (Lv : length v = n) by (unfold v, unit_row_; rewrite map_length, seq_length; auto).
  assert (Gv : forall k, (k < n)%nat -> vget v k = kron l k) by (intros k Hk; unfold v, unit_row_; rewrite vget_map_seq by auto; unfold kron; rewrite Nat.eqb_sym; auto).
  assert (EW : arnoldi_X (fun _ => index_set p n) (index_set p n) Rs y = Some (row_of Q b)).
  { destruct (arnoldi_X_spec p n Hn (fun _ => index_set p n) (look_all p n Hn) Rs y WF) as (W & E & LW & _). rewrite E. f_equal. apply vec_ext; [unfold row_of; rewrite map_length; rewrite LW; auto|].
    intros k Hk. rewrite LW in Hk. unfold row_of. rewrite (map_get _ (fun q => vget q b) Q k []) by (rewrite LQ; exact Hk). rewrite <- WV by (auto; rewrite map_length; auto). rewrite Yb. unfold wval. rewrite E. reflexivity. }
  assert (D1 : derivable_pt_lim (fun t => wval p n (fun _ => index_set p n) Rs (vadd y (vscale t v)) j) 0 (vget (dv p us X Q Rs b l) j)).
  { eapply d_ext; [intro t; reflexivity| |apply (arn_dir p n Hn Rs WF y v (row_of Q b) (dv p us X Q Rs b) Ly Lv EW); auto].
    - rewrite (rsum_ext n _ (fun k => kron l k * vget (dv p us X Q Rs b k) j)) by (intros k Hk; rewrite Gv by auto; ring). apply (kron_sum n l (fun k => vget (dv p us X Q Rs b k) j)); auto.
    - intros k Hk. rewrite <- Yb. apply (dv_some p us X Hn Q Rs FR b k Hk). }
  assert (D2 : derivable_pt_lim (fun t => wval p n (fun _ => index_set p n) Rs (vadd y (vscale t v)) j) 0 (rsum N (fun i => c i * dpsi (monoB p n) (nth i (index_set p n) []) l y))).
  { eapply d_ext; [| |apply (d_rsum N (fun i t => c i * vget (Vrow (monoB p n) (vadd y (vscale t v))) i) (fun i => c i * dot (nth i (DVrow (monoB p n) y) []) v)); intros i Hi; apply d_scal; apply (V_dir (monoB p n) y v i monomials_ok Ly Lv Hn Hi)].
    - intro t. assert (Lt : length (vadd y (vscale t v)) = n) by (rewrite vadd_length; rewrite ?vscale_length; lia). rewrite <- (kron_sum N j (fun k => wval p n (fun _ => index_set p n) Rs (vadd y (vscale t v)) k)) by auto. rewrite C by auto. apply rsum_ext. intros i Hi. rewrite Vrow_mono by auto. reflexivity.
    - apply rsum_ext. intros i Hi. f_equal. rewrite (dot_rs n) by (auto; apply (DVrow_row_len (monoB p n) y i Hi)). rewrite (rsum_ext n _ (fun k => kron l k * vget (nth i (DVrow (monoB p n) y) []) k)) by (intros k Hk; rewrite Gv by auto; ring). rewrite kron_sum by auto. apply (DVrow_nth (monoB p n) monomials_ok y i l Hn Hi Hl). }
  exact (uniqueness_limite _ _ _ _ D1 D2).
Qed.
Theorem arn_kernel_affine : forall p m us X f ds, va_pre p m us X f -> affdir m us X ds -> exists J, va_jac p m us X f = Some J /\ lincomb (length X) J (flat m ds) = vzero (length X).
Proof.
  intros p m us X f ds PR (Ld & FD & be & A & HA). destruct (pre_frame _ _ _ _ _ PR) as (Q & Rs & FR). pose proof PR as (Hn & NE & FU & FX & Lf & US). exists (vjac p m us X f Q Rs). split; [apply (vjac_is p m us X f Hn Lf Q Rs FR)|].
  set (n := length us) in *. set (N := length (index_set p n)) in *. set (M := length X) in *. set (Y := map (mv us) X) in *. assert (ML : length Y = M) by (unfold Y; apply map_length). assert (YN : forall b, (b < M)%nat -> nth b Y [] = mv us (nth b X [])) by (intros b Hb; apply (Y_nth us X b Hb)).
  destruct (vjac_cols p m us X f Hn NE Lf Q Rs FR) as [LJ FJ]. apply vec_ext; [unfold vzero; rewrite repeat_length; apply lincomb_length; auto|]. intros a Ha. rewrite lincomb_length in Ha by auto. rewrite vzero_get.
  pose proof (vjac_dir p m us X f Hn NE Lf Q Rs FR ds a Ld Ha) as JD. fold n N M Y in JD. rewrite JD. clear JD.
  assert (LX : forall b, (b < M)%nat -> length (nth b X []) = m) by (intros b Hb; rewrite Forall_forall in FX; apply FX, nth_In; auto).
  destruct (svdQ p us X Q Rs FR) as (YO & _ & _ & VE & _). fold n N M in YO, VE. pose proof FR as (_ & WF & LQ & FQ & OR & NZ & WV).
  assert (LS : lsres p n Y f (fres Y f Q)) by (apply (fres_lsres p n Y f Hn (Y_F us X) ltac:(lia) Q Rs FR)). destruct LS as (_ & _ & PE).
  assert (PG : forall j, (j < N)%nat -> exists T, forall b, (b < M)%nat -> dirV p m us X Q Rs ds b j = poly_of p n T (nth b Y [])).
  { intros j Hj. destruct (dv_poly p us X Q Rs Hn NE FR j Hj) as [c C]. fold n N M in C. set (B := monoB p n).
    set (g := fun y => rsum n (fun l => rsum N (fun i => (vget be l * c i) * dpsi B (nth i (index_set p n) []) l y) + rsum n (fun q => rsum N (fun i => (vget (nth l A []) q * c i) * (vget y q * dpsi B (nth i (index_set p n) []) l y))))).
    assert (OB : basis_ok B n) by (apply monoB_ok; auto). destruct OB as (FO & F3 & _ & _ & DN).
    assert (SG : pspan B (tb_deg B) g).
    { unfold g. apply (pspan_rsum B (tb_deg B) n (fun l y => rsum N (fun i => (vget be l * c i) * dpsi B (nth i (index_set p n) []) l y) + rsum n (fun q => rsum N (fun i => (vget (nth l A []) q * c i) * (vget y q * dpsi B (nth i (index_set p n) []) l y))))). intros l Hl. apply pspan_add; [apply (pspan_rsum B (tb_deg B) N (fun i y => (vget be l * c i) * dpsi B (nth i (index_set p n) []) l y)); intros i Hi; apply pspan_scal; apply pspan_d; auto; apply nth_In; auto|].
      apply (pspan_rsum B (tb_deg B) n (fun q y => rsum N (fun i => (vget (nth l A []) q * c i) * (vget y q * dpsi B (nth i (index_set p n) []) l y)))). intros q Hq.
      apply (pspan_rsum B (tb_deg B) N (fun i y => (vget (nth l A []) q * c i) * (vget y q * dpsi B (nth i (index_set p n) []) l y))). intros i Hi. apply pspan_scal. apply pspan_xd; auto. apply nth_In. auto. }
    destruct (pspan_V B Hn g SG) as (T & LT & ET). exists (vget T). intros b Hb. assert (Ly : length (nth b Y []) = n) by (rewrite (YN b Hb); apply mv_length).
    rewrite poly_of_V by auto. transitivity (g (nth b Y [])).
    - unfold dirV, g. fold n. rewrite (YN b Hb). apply rsum_ext. intros l Hl. rewrite C by auto.
      assert (ED : rsum m (fun k => vget (nth b X []) k * ent ds l k) = vget be l + rsum n (fun q => vget (nth l A []) q * vget (mv us (nth b X [])) q)).
      { unfold ent. rewrite <- (dot_rs m) by (auto; rewrite Forall_forall in FD; apply FD, nth_In; lia). apply HA; auto. }
      rewrite ED. rewrite Rmult_plus_distr_l. f_equal; [rewrite <- rsum_scal_r; apply rsum_ext; intros i Hi; unfold B, n; ring|]. rewrite <- rsum_scal_l. apply rsum_ext. intros q Hq. rewrite <- rsum_scal_r. apply rsum_ext. intros i Hi. unfold B, n. ring.
    - rewrite ET by auto. rewrite (dot_rs N) by (auto; apply Vrow_len). apply rsum_ext. intros; unfold B; ring. }
  assert (Z : forall j, (j < N)%nat -> rsum M (fun b => dirV p m us X Q Rs ds b j * (vQ N (ent Q) a b * vget (mv Q f) j + vR N (ent Q) (vget (repeat 1 N)) (ent (eye N)) a j * vget (fres Y f Q) b)) = 0).
  { intros j Hj. destruct (PG j Hj) as [T HT].
    rewrite (rsum_ext M _ (fun b => vget (mv Q f) j * (vQ N (ent Q) a b * poly_of p n T (nth b Y [])) + vR N (ent Q) (vget (repeat 1 N)) (ent (eye N)) a j * (poly_of p n T (nth b Y []) * vget (fres Y f Q) b))) by (intros b Hb; rewrite HT by auto; ring).
    rewrite rsum_plus, !rsum_scal_l. rewrite <- ML at 2. rewrite PE. destruct (to_basis p n Hn (fun _ => index_set p n) (look_all p n Hn) Rs WF NZ T N (Nat.le_refl N)) as (e & E & _).
    rewrite (rsum_ext M _ (fun b => rsum N (fun k => e k * (vQ N (ent Q) a b * ent Q k b)))).
    - rewrite rsum_swap. rewrite (rsum_zero N) by (intros k Hk; rewrite rsum_scal_l; rewrite (QV M N (fun b j => ent Q j b) (ent Q) (vget (repeat 1 N)) (ent (eye N)) YO VE a k Ha Hk); ring). ring.
    - intros b Hb. unfold poly_of. fold N. rewrite E by (rewrite (YN b Hb); apply mv_length). rewrite <- rsum_scal_l. apply rsum_ext. intros k Hk. rewrite WV by (auto; lia). unfold ent. ring. }
  rewrite rsum_swap. rewrite rsum_zero by exact Z. ring.
Qed.

Theorem arn_kernel : forall p m us X f ds, va_pre p m us X f -> within m us ds -> exists J, va_jac p m us X f = Some J /\ lincomb (length X) J (flat m ds) = vzero (length X).
Proof. intros p m us X f ds PR W. apply arn_kernel_affine; auto. destruct PR as (_ & _ & FU & FX & _). apply within_affdir; auto. Qed.

(* ---------------- breakdown ---------------- *)
(** when the projected samples do not determine the polynomials, the Arnoldi basis divides by zero; the tensor bases still give a least-squares fit *)
Theorem arn_breakdown : forall p m us X f, (1 <= length us)%nat -> X <> [] -> Forall (fun x => length x = m) X -> length f = length X -> ~ unisolvent p (length us) (map (mv us) X) ->
  (exists Q Rs, arnoldi (map (mv us) X) (index_set p (length us)) = Some (Q, Rs) /\ ~ no_breakdown Rs) /\ forall B, exists c, ls_opt (length (indices B)) (vp_V B us X) f c.
Proof.
  intros p m us X f Hn NE FX Lf NU. split.
  - destruct (arn_built (map (mv us) X) p (length us) Hn (Y_ne us X NE)) as (Q & Rs & E & _). exists Q, Rs. split; auto. intro B. apply NU. apply (arnoldi_breakdown_iff (map (mv us) X) p (length us) Q Rs Hn (Y_ne us X NE) (Y_F us X) E). exact B.
  - intro B. destruct (lsq_opt (length (indices B)) (vp_V B us X) f ltac:(rewrite vp_V_len; auto)) as (c & _ & H). exists c. exact H.
Qed.

(** The Arnoldi branch of the variable projection (C135): the residual is the least-squares residual of the polynomials in U^T x, the
    same as with the tensor bases, and the Jacobian is its derivative. *)
Require Import Reals Lra Lia List Bool Arith Wf_nat.
From Verif Require Import RVec Num Sums DomModel DomMoreModel SweepProofs HullProofs Deriv BasisModel IndexProofs PolyProofs MatLib SpecProofs GrassLib LipModel LipFitProofs SubModel RidgeModel RidgeProofs TrajProofs PolySpan VarproLib VarproProofs ArnoldiProofs ArnoldiMoreProofs PolyfitModel PolyfitProofs LsqAlg ProjGradProofs VarArnModel.
Import ListNotations.
Local Open Scope R_scope.

(* ---------------- the monomial basis without scaling ---------------- *)
Definition monoB (p n : nat) : tbasis := mkTB monomials p n NoScale.
Lemma monoB_ok : forall p n, (1 <= n)%nat -> basis_ok (monoB p n) n.
Proof. intros p n Hn. split; [apply monomials_ok|]. split; [apply monomials_rec|]. split; [reflexivity|]. split; auto. intros k Hk. cbn. lra. Qed.
Lemma prodn_S_l : forall n f, prodn (S n) f = f O * prodn n (fun k => f (S k)).
Proof. induction n as [|n IH]; intro f; [simpl; ring|]. change (prodn (S (S n)) f) with (prodn (S n) f * f (S n)). rewrite IH. simpl. ring. Qed.
Lemma mono_prod : forall a x, length a = length x -> mono a x = prodn (length a) (fun k => vget x k ^ ith a k).
Proof. induction a as [|e a IH]; intros [|t x] L; try discriminate; [reflexivity|]. cbn [length]. rewrite prodn_S_l. cbn [mono]. rewrite IH by (simpl in L; lia). reflexivity. Qed.
Lemma psi_mono : forall p n al y, length al = n -> length y = n -> psi (monoB p n) al y = mono al y.
Proof. intros p n al y La Ly. rewrite mono_prod by lia. rewrite La. reflexivity. Qed.
Lemma Vrow_mono : forall p n y k, (1 <= n)%nat -> length y = n -> (k < length (index_set p n))%nat -> vget (Vrow (monoB p n) y) k = mono (nth k (index_set p n) []) y.
Proof.
  intros p n y k Hn Ly Hk. rewrite Vrow_nth by (auto; exact Hk). apply psi_mono; auto. apply (idx_nth_len p n Hn k Hk).
Qed.
Lemma poly_of_V : forall p n c y, (1 <= n)%nat -> length y = n -> poly_of p n c y = rsum (length (index_set p n)) (fun k => vget (Vrow (monoB p n) y) k * c k).
Proof. intros p n c y Hn Ly. unfold poly_of. apply rsum_ext. intros k Hk. rewrite Vrow_mono by auto. ring. Qed.

(* ---------------- the residual ---------------- *)
Section RES.
  Variables (p n : nat) (Y : mat) (f : vec).
  Hypothesis Hn : (1 <= n)%nat.
  Hypothesis NE : Y <> [].
  Hypothesis FY : Forall (fun y => length y = n) Y.
  Hypothesis Lf : length f = length Y.
  Hypothesis US : unisolvent p n Y.
  Let idx := index_set p n.
  Let N := length idx.
  Notation lk := (fun _ : nat => index_set p n).
  (** the basis built at Y *)
  Definition frame (Q : list vec) (Rs : list (vec * R)) : Prop :=
    arnoldi Y idx = Some (Q, Rs) /\ wfR p n Rs /\ length Q = N /\ Forall (fun q => length q = length Y) Q /\ orthw 1 Q N /\ (forall k, (k < N)%nat -> rdiag Rs k <> 0) /\
    forall s k, (s < length Y)%nat -> (k < N)%nat -> wval p n lk Rs (nth s Y []) k = vget (nth k Q []) s.
  Lemma frame_exists : exists Q Rs, frame Q Rs.
  Proof.
    destruct (arn_built Y p n Hn NE) as (Q & Rs & E & BU & IN & R0 & D0). exists Q, Rs. pose proof (look_all p n Hn) as LK.
    assert (NB : no_breakdown Rs) by (apply (arnoldi_breakdown_iff Y p n Q Rs Hn NE FY E); auto). pose proof (built_wfR p n Hn lk LK Y 1 Q Rs BU IN) as WF.
    assert (NZ : forall k, (k < N)%nat -> rdiag Rs k <> 0) by (intros k Hk; apply NB; destruct WF as [WL _]; rewrite WL; exact Hk).
    split; [exact E|]. split; [exact WF|]. pose proof BU as [B1 [B2 [B3 B4]]]. split; [exact B1|].
    pose proof B3 as FQ.
    split; [exact FQ|]. split; [apply (orthogonal p n Hn lk LK Y 1 Q Rs BU); auto; lra|]. split; [exact NZ|].
    intros s k Hs Hk. apply (wv_Q p n Hn lk LK Y 1 Q Rs BU IN s k Hs Hk).
  Qed.

  (** least-squares residual of the polynomials of degree p: f minus a polynomial, orthogonal to all polynomials (on the samples) *)
  Definition lsres (r : vec) : Prop := length r = length Y /\ (exists c, forall s, (s < length Y)%nat -> vget r s = vget f s - poly_of p n c (nth s Y [])) /\
    forall c, rsum (length Y) (fun s => poly_of p n c (nth s Y []) * vget r s) = 0.
  Definition fres (Q : list vec) : vec := vsub f (mv (rows_of (length Y) Q) (mv Q f)).
  Section FR.
    Variables (Q : list vec) (Rs : list (vec * R)).
    Hypothesis FR : frame Q Rs.
    Lemma Y_len : forall s, (s < length Y)%nat -> length (nth s Y []) = n.
    Proof. intros s Hs. apply (proj1 (Forall_forall _ _) FY). apply nth_In. auto. Qed.
    Lemma Qn_len : forall k, (k < N)%nat -> length (nth k Q []) = length Y.
    Proof. destruct FR as (_ & _ & LQ & FQ & _). intros k Hk. apply (proj1 (Forall_forall _ _) FQ). apply nth_In. lia. Qed.
    Lemma fres_len : length (fres Q) = length Y.
    Proof. unfold fres. rewrite vsub_length; [auto|]. rewrite mv_length. unfold rows_of. rewrite map_length, seq_length. auto. Qed.
    Lemma fres_get : forall s, (s < length Y)%nat -> vget (fres Q) s = vget f s - rsum N (fun k => vget (nth k Q []) s * dot (nth k Q []) f).
    Proof.
      destruct FR as (_ & _ & LQ & FQ & _). intros s Hs. unfold fres. assert (LR : length (rows_of (length Y) Q) = length Y) by (unfold rows_of; rewrite map_length, seq_length; auto). rewrite vsub_get by (rewrite mv_length; lia). f_equal.
      rewrite mv_get by lia. unfold rows_of. rewrite (nth_map_seq _ (fun s => map (fun q => vget q s) Q)) by auto. rewrite (dot_rs N) by (rewrite ?mv_length, ?map_length; auto). apply rsum_ext. intros k Hk.
      rewrite mv_get by lia. f_equal. apply (map_get _ (fun q => vget q s) Q k []). lia.
    Qed.
    Lemma fres_perp : forall k, (k < N)%nat -> rsum (length Y) (fun s => vget (nth k Q []) s * vget (fres Q) s) = 0.
    Proof.
      pose proof FR as (_ & _ & LQ & FQ & OR & _). intros k Hk.
      rewrite (rsum_ext (length Y) _ (fun s => vget (nth k Q []) s * vget f s - rsum N (fun j => vget (nth k Q []) s * vget (nth j Q []) s * dot (nth j Q []) f))).
      2:{ intros s Hs. rewrite fres_get by auto. rewrite Rmult_minus_distr_l, <- rsum_scal_l. f_equal. apply rsum_ext. intros; ring. }
      rewrite rsum_minus, rsum_swap. rewrite (rsum_ext N _ (fun j => (if Nat.eqb k j then 1 else 0) * dot (nth j Q []) f)).
      2:{ intros j Hj. rewrite rsum_scal_r. f_equal. rewrite <- (dot_rs (length Y)) by (apply Qn_len; auto). apply OR; auto. }
      rewrite (rsum_single N k); [|auto|intros j Hj Nj; destruct (Nat.eqb_spec k j); [lia|ring]]. rewrite Nat.eqb_refl. rewrite (dot_rs (length Y)) by (auto; apply Qn_len; auto). ring.
    Qed.
    Lemma fres_lsres : lsres (fres Q).
    Proof.
      pose proof FR as (_ & WF & LQ & FQ & OR & NZ & WV). pose proof (look_all p n Hn) as LK. split; [apply fres_len|]. split.
      - destruct (from_basis p n Hn lk LK Rs WF NZ (fun k => dot (nth k Q []) f) N (Nat.le_refl N)) as [c C]. exists c. intros s Hs. rewrite fres_get by auto. f_equal. unfold poly_of. fold idx. fold N. rewrite <- C by (apply Y_len; auto). apply rsum_ext. intros k Hk. rewrite WV by auto. ring.
      - intros c. destruct (to_basis p n Hn lk LK Rs WF NZ c N (Nat.le_refl N)) as [e [E _]].
        rewrite (rsum_ext (length Y) _ (fun s => rsum N (fun k => e k * (vget (nth k Q []) s * vget (fres Q) s)))).
        + rewrite rsum_swap. apply rsum_zero. intros k Hk. rewrite rsum_scal_l, fres_perp by auto. ring.
        + intros s Hs. unfold poly_of. fold idx. fold N. rewrite E by (apply Y_len; auto). rewrite <- rsum_scal_r. apply rsum_ext. intros k Hk. rewrite WV by auto. ring.
    Qed.
  End FR.
End RES.

Lemma lsres_best : forall p n Y f r, lsres p n Y f r -> forall c, norm2sq r <= rsum (length Y) (fun s => (vget f s - poly_of p n c (nth s Y [])) ^ 2).
Proof.
  intros p n Y f r (Lr & [q Q] & PE) c. unfold norm2sq. rewrite (dot_rs (length Y)) by auto.
  rewrite (rsum_ext (length Y) (fun s => (vget f s - poly_of p n c (nth s Y [])) ^ 2) (fun s => vget r s * vget r s + (2 * (poly_of p n (fun k => q k - c k) (nth s Y []) * vget r s) + poly_of p n (fun k => q k - c k) (nth s Y []) ^ 2))).
  - rewrite !rsum_plus, rsum_scal_l, PE. assert (0 <= rsum (length Y) (fun s => poly_of p n (fun k => q k - c k) (nth s Y []) ^ 2)) by (apply rsum_nonneg; intros; apply pow2_ge_0). lra.
  - intros s Hs. assert (E : poly_of p n (fun k => q k - c k) (nth s Y []) = poly_of p n q (nth s Y []) - poly_of p n c (nth s Y [])) by (unfold poly_of; rewrite <- rsum_minus; apply rsum_ext; intros; ring). rewrite E, Q by auto. ring.
Qed.

Section VA.
  Variables (p m : nat) (us : list vec) (X : mat) (f : vec).
  Let n := length us.
  Let Y := map (mv us) X.
  Let idx := index_set p n.
  Let N := length idx.
  Hypothesis Hn : (1 <= n)%nat.
  Hypothesis NE : X <> [].
  Hypothesis FU : Forall (fun u => length u = m) us.
  Hypothesis FX : Forall (fun x => length x = m) X.
  Hypothesis Lf : length f = length X.
  Hypothesis US : unisolvent p n Y.
  Lemma Y_ne : Y <> [].
  Proof using NE. unfold Y. intro E. apply map_eq_nil in E. contradiction. Qed.
  Lemma Y_F : Forall (fun y => length y = n) Y.
  Proof. unfold Y. apply Forall_forall. intros y I. apply in_map_iff in I. destruct I as [x [<- _]]. apply mv_length. Qed.
  Lemma LY : length Y = length X.
  Proof. unfold Y. apply map_length. Qed.
  Lemma Y_nth : forall s, (s < length X)%nat -> nth s Y [] = mv us (nth s X []).
  Proof. intros s Hs. unfold Y. rewrite nth_indep with (d' := mv us []) by (rewrite map_length; auto). apply map_nth. Qed.
  Lemma va_frame : exists Q Rs, frame p n Y Q Rs.
  Proof using Hn NE US. apply frame_exists; auto; [apply Y_ne|apply Y_F]. Qed.
  Lemma va_res : forall Q Rs, frame p n Y Q Rs -> va_residual p us X f = Some (fres Y f Q).
  Proof. intros Q Rs (E & _). unfold va_residual. fold Y. fold n. fold idx. unfold idx. rewrite E. unfold fres. rewrite LY. reflexivity. Qed.
  Lemma va_lsres : exists r, va_residual p us X f = Some r /\ lsres p n Y f r.
  Proof using Hn NE US Lf. destruct va_frame as (Q & Rs & FR). exists (fres Y f Q). split; [apply (va_res Q Rs FR)|]. apply (fres_lsres p n Y f Hn Y_F ltac:(rewrite LY; auto) Q Rs FR). Qed.
  (** in terms of the monomial tensor basis *)
  Lemma va_mono : exists c, ls_opt N (vp_V (monoB p n) us X) f c /\ va_residual p us X f = Some (vp_residual (vp_V (monoB p n) us X) f c).
  Proof.
    destruct va_lsres as (r & E & LS). pose proof LS as (Lr & [q Hq] & PE). rewrite LY in *. exists (map q (seq 0 N)).
    assert (Lq : length (map q (seq 0 N)) = N) by (rewrite map_length, seq_length; auto).
    assert (PV : forall c s, length c = N -> (s < length X)%nat -> vget (mv (vp_V (monoB p n) us X) c) s = poly_of p n (vget c) (nth s Y [])).
    { intros c s Lc Hs. rewrite mv_get by (rewrite vp_V_len; auto). rewrite vp_V_nth by auto. rewrite poly_of_V by (auto; rewrite Y_nth by auto; apply mv_length). rewrite Y_nth by auto. apply (dot_rs N); auto. apply Vrow_len. }
    assert (ER : vp_residual (vp_V (monoB p n) us X) f (map q (seq 0 N)) = r).
    { unfold vp_residual. assert (LM : length (mv (vp_V (monoB p n) us X) (map q (seq 0 N))) = length X) by (rewrite mv_length, vp_V_len; auto). apply vec_ext; [rewrite vsub_length; lia|]. intros s Hs. rewrite vsub_length in Hs by lia. rewrite vsub_get by lia. rewrite PV by (auto; lia). rewrite Hq by lia. f_equal.
      unfold poly_of. fold idx. fold N. apply rsum_ext. intros k Hk. rewrite vget_map_seq by auto. reflexivity. }
    split; [|rewrite ER; exact E]. split; auto. intros c' Lc'. change (vsub f (mv (vp_V (monoB p n) us X) (map q (seq 0 N)))) with (vp_residual (vp_V (monoB p n) us X) f (map q (seq 0 N))). rewrite ER. unfold norm2. apply sqrt_le_1_alt.
    eapply Rle_trans; [apply (lsres_best p n Y f r LS (vget c'))|]. right. rewrite LY. unfold norm2sq. assert (LM : length (mv (vp_V (monoB p n) us X) c') = length X) by (rewrite mv_length, vp_V_len; auto). rewrite (dot_rs (length X)) by (rewrite vsub_length; lia). apply rsum_ext. intros s Hs. rewrite vsub_get by lia. rewrite PV by auto. ring.
  Qed.
End VA.

(* ---------------- directional derivatives of the basis functions ---------------- *)
Section DIR.
  Variables p n : nat.
  Hypothesis Hn : (1 <= n)%nat.
  Let idx := index_set p n.
  Let N := length idx.
  Variable Rs : list (vec * R).
  Hypothesis WF : wfR p n Rs.
  Notation lk := (fun _ : nat => index_set p n).
  Let LK := look_all p n Hn.
  (** values of DV at one point: the recurrence of lines 536-542 *)
  Lemma arn_DV_rec : forall x W ell, (ell < n)%nat -> exists D, arnoldi_DV idx Rs x W ell = Some D /\ length D = N /\ vget D 0 = 0 /\
    forall k, (1 <= k < N)%nat -> vget D k = ((if Nat.eqb (fst (pick p n lk k)) ell then vget W (snd (pick p n lk k)) else 0) +
      vget x (fst (pick p n lk k)) * vget D (snd (pick p n lk k)) - rsum k (fun s => rcoef Rs k s * vget D s)) / rdiag Rs k.
  Proof.
    intros x W ell He. pose proof (idx_N p n Hn) as HN. fold idx in HN. fold N in HN.
    destruct (arnoldi_DV_loop_spec p n Hn Rs ell WF He x W (N - 1) [0]) as [D' [ED [LD RD]]]; [cbn [length]; fold idx; fold N; lia|cbn [length]; fold idx; fold N; lia|].
    exists ([0] ++ D'). split.
    { pose proof WF as [WL _]. unfold arnoldi_DV. destruct Rs as [|[r0s r0] Rs'] eqn:ER; [simpl in WL; fold idx in WL; fold N in WL; lia|]. rewrite <- ED. reflexivity. }
    split; [exact LD|]. split; [reflexivity|]. intros k Hk. apply RD. cbn [length]. exact Hk.
  Qed.
  Lemma arn_dir : forall x v W (D : nat -> vec), length x = n -> length v = n -> arnoldi_X lk idx Rs x = Some W -> (forall l, (l < n)%nat -> arnoldi_DV idx Rs x W l = Some (D l)) ->
    forall k, (k < N)%nat -> derivable_pt_lim (fun t => wval p n lk Rs (vadd x (vscale t v)) k) 0 (rsum n (fun l => vget (D l) k * vget v l)).
  Proof.
    intros x v W D Lx Lv EW ED. 
    assert (DR : forall l, (l < n)%nat -> vget (D l) 0 = 0 /\ forall k, (1 <= k < N)%nat -> vget (D l) k = ((if Nat.eqb (fst (pick p n lk k)) l then vget W (snd (pick p n lk k)) else 0) +
      vget x (fst (pick p n lk k)) * vget (D l) (snd (pick p n lk k)) - rsum k (fun s => rcoef Rs k s * vget (D l) s)) / rdiag Rs k).
    { intros l Hl. destruct (arn_DV_rec x W l Hl) as (D' & E' & _ & Z & RR). rewrite ED in E' by auto. injection E' as E'. rewrite E'. split; auto. }
    assert (MV : forall t i, (i < n)%nat -> vget (vadd x (vscale t v)) i = vget x i + t * vget v i) by (intros t i Hi; rewrite vadd_get by (rewrite vscale_length; lia); rewrite vscale_get; ring).
    assert (X0 : vadd x (vscale 0 v) = x).
    { apply vec_ext; [apply vadd_length; rewrite vscale_length; lia|]. intros i Hi. rewrite vadd_length in Hi by (rewrite vscale_length; lia). rewrite MV by lia. ring. }
    assert (WX : forall k, (k < N)%nat -> wval p n lk Rs x k = vget W k) by (intros k Hk; unfold wval; unfold idx in EW; rewrite EW; auto).
    induction k as [k IH] using (well_founded_induction lt_wf). intro Hk. destruct k as [|k].
    - apply d_ext with (f := fun _ => 1 / rdiag Rs 0) (l := 0); [|rewrite rsum_zero; auto; intros l Hl; rewrite (proj1 (DR l Hl)); ring|apply d_const].
      intro t. destruct (wval_rec p n Hn lk LK Rs (vadd x (vscale t v)) WF) as [W0 _]. auto.
    - destruct (pick_ok p n lk LK (S k) ltac:(fold idx; fold N; lia)) as [_ [P1 [P2 _]]].
      set (i := fst (pick p n lk (S k))) in *. set (j := snd (pick p n lk (S k))) in *.
      set (g := fun k t => wval p n lk Rs (vadd x (vscale t v)) k). set (d := fun k => rsum n (fun l => vget (D l) k * vget v l)).
      apply d_ext with (f := fun t => / rdiag Rs (S k) * ((vget x i + vget v i * t) * g j t - rsum (S k) (fun s => rcoef Rs (S k) s * g s t)))
        (l := / rdiag Rs (S k) * (((0 + vget v i * 1) * g j 0 + (vget x i + vget v i * 0) * d j) - rsum (S k) (fun s => rcoef Rs (S k) s * d s))).
      + intro t. destruct (wval_rec p n Hn lk LK Rs (vadd x (vscale t v)) WF) as [_ WS]. rewrite (WS (S k)) by (fold idx; fold N; lia). fold i. fold j. rewrite MV by auto. fold (g j t).
        unfold Rdiv. rewrite Rmult_comm. f_equal. unfold Rminus. f_equal. ring.
      + unfold g. rewrite X0. rewrite WX by lia.
        rewrite (rsum_ext n (fun l => vget (D l) (S k) * vget v l) (fun l => / rdiag Rs (S k) * ((if Nat.eqb i l then vget W j * vget v l else 0) + vget x i * (vget (D l) j * vget v l) - rsum (S k) (fun s => rcoef Rs (S k) s * (vget (D l) s * vget v l))))).
        2:{ intros l Hl. rewrite (proj2 (DR l Hl) (S k)) by lia. fold i. fold j. rewrite (rsum_ext (S k) (fun s => rcoef Rs (S k) s * (vget (D l) s * vget v l)) (fun s => rcoef Rs (S k) s * vget (D l) s * vget v l)) by (intros; ring). rewrite rsum_scal_r. destruct (Nat.eqb i l); unfold Rdiv; ring. }
        rewrite rsum_scal_l. f_equal. rewrite rsum_minus, rsum_plus, rsum_scal_l. rewrite (rsum_single n i); [|auto|intros l Hl Nl; destruct (Nat.eqb_spec i l); [lia|auto]]. rewrite Nat.eqb_refl. fold (d j).
        rewrite rsum_swap. rewrite (rsum_ext (S k) (fun s => rsum n (fun l => rcoef Rs (S k) s * (vget (D l) s * vget v l))) (fun s => rcoef Rs (S k) s * d s)) by (intros s Hs; rewrite rsum_scal_l; reflexivity). ring.
      + apply d_scal. apply d_minus.
        * apply (d_mult (fun t => vget x i + vget v i * t) (g j)); [apply d_plus; [apply d_const|apply d_scal, d_id]|apply IH; lia].
        * apply (d_rsum (S k) (fun s t => rcoef Rs (S k) s * g s t) (fun s => rcoef Rs (S k) s * d s)). intros s Hs. apply d_scal. apply IH; lia.
  Qed.
End DIR.

(* ---------------- the Jacobian ---------------- *)
(** J flat(D) for columns that are linear in x_k and in the derivatives of V *)
Lemma cols_dir : forall M N m n ys s zs c r (dV : nat -> nat -> mat) (g : nat -> nat -> nat -> R) (x : nat -> nat -> R) ds a,
  length ys = N -> Forall (fun y => length y = M) ys -> length zs = N -> Forall (fun z => length z = N) zs -> length c = N -> length r = M -> (a < M)%nat -> length ds = n ->
  (forall k l, (k < m)%nat -> (l < n)%nat -> length (dV k l) = M /\ Forall (fun v => length v = N) (dV k l) /\ forall b j, (b < M)%nat -> (j < N)%nat -> ent (dV k l) b j = x b k * g b j l) ->
  rsum (m * n) (fun i => vget (flat m ds) i * vget (vp_col M N ys s zs (dV (i / n)%nat (i mod n)%nat) c r) a) =
  - rsum M (fun b => rsum N (fun j => rsum n (fun l => g b j l * rsum m (fun k => x b k * ent ds l k)) * (vQ N (ent ys) a b * vget c j + vR N (ent ys) (vget s) (ent zs) a j * vget r b))).
Proof.
  intros M N m n ys s zs c r dV g x ds a Ly FY Lz FZ Lc Lr Ha Ld DV.
  set (G := fun b j => vQ N (ent ys) a b * vget c j + vR N (ent ys) (vget s) (ent zs) a j * vget r b). rewrite rsum_grid.
  rewrite (rsum_ext m _ (fun k => rsum n (fun l => - rsum M (fun b => rsum N (fun j => ent ds l k * (x b k * g b j l) * G b j))))).
  - rewrite (rsum_ext m _ (fun k => - rsum M (fun b => rsum N (fun j => rsum n (fun l => ent ds l k * (x b k * g b j l) * G b j))))).
    + rewrite rsum_opp. f_equal. rewrite rsum_swap. apply rsum_ext. intros b Hb. rewrite rsum_swap. apply rsum_ext. intros j Hj. rewrite rsum_swap. fold (G b j). rewrite <- rsum_scal_r. apply rsum_ext. intros l Hl. rewrite rsum_scal_r. f_equal. rewrite <- rsum_scal_l. apply rsum_ext. intros; ring.
    + intros k Hk. rewrite rsum_opp. f_equal. rewrite rsum_swap. apply rsum_ext. intros b Hb. rewrite rsum_swap. auto.
  - intros k Hk. apply rsum_ext. intros l Hl. destruct (DV k l Hk Hl) as (D1 & D2 & D3). rewrite <- Ld at 1. rewrite flat_get by lia.
    replace ((k * n + l) / n)%nat with k by (rewrite Nat.div_add_l by lia; rewrite Nat.div_small by lia; lia). replace ((k * n + l) mod n)%nat with l by (rewrite Nat.add_comm, Nat.mod_add by lia; rewrite Nat.mod_small; lia).
    destruct (vp_col_get M N ys s zs (dV k l) c r a Ly FY Lz FZ D1 D2 Lc Lr Ha) as [_ ->].
    rewrite Ropp_mult_distr_r_reverse. f_equal. rewrite <- rsum_scal_l. apply rsum_ext. intros b Hb. rewrite <- rsum_scal_l. apply rsum_ext. intros j Hj. rewrite D3 by auto. fold (G b j). ring.
Qed.
Lemma eye_ent : forall N i j, (i < N)%nat -> (j < N)%nat -> ent (eye N) i j = kron i j.
Proof. intros N i j Hi Hj. unfold ent, eye. rewrite (nth_map_seq _ (unit_row_ N)) by auto. unfold unit_row_. rewrite vget_map_seq by auto. unfold kron. rewrite Nat.eqb_sym. reflexivity. Qed.
Lemma eye_len : forall N, length (eye N) = N.
Proof. intro N. unfold eye. rewrite map_length, seq_length. reflexivity. Qed.
Lemma eye_rows : forall N, Forall (fun z => length z = N) (eye N).
Proof. intro N. apply Forall_forall. intros z I. unfold eye in I. apply in_map_iff in I. destruct I as [i [<- _]]. unfold unit_row_. rewrite map_length, seq_length. reflexivity. Qed.
Lemma repeat_get : forall N (x : R) k, (k < N)%nat -> vget (repeat x N) k = x.
Proof. induction N as [|N IH]; intros x [|k] Hk; try lia; [reflexivity|]. cbn. apply IH. lia. Qed.

Section VJ.
  Variables (p m : nat) (us : list vec) (X : mat) (f : vec).
  Let n := length us.
  Let Y := map (mv us) X.
  Let idx := index_set p n.
  Let N := length idx.
  Let M := length X.
  Notation lk := (fun _ : nat => index_set p n).
  Hypothesis Hn : (1 <= n)%nat.
  Hypothesis NE : X <> [].
  Hypothesis FU : Forall (fun u => length u = m) us.
  Hypothesis FX : Forall (fun x => length x = m) X.
  Hypothesis Lf : length f = length X.
  Variables (Q : list vec) (Rs : list (vec * R)).
  Hypothesis FR : frame p n Y Q Rs.
  Definition row_of (s : nat) : vec := map (fun q => vget q s) Q.
  Definition dv (s l : nat) : vec := match arnoldi_DV idx Rs (nth s Y []) (row_of s) l with Some D => D | None => [] end.
  Definition vjac : list vec := map (fun i => vp_col M N Q (repeat 1 N) (eye N) (va_dvdu X (map (fun s => dv s (i mod n)) (seq 0 M)) (i / n)) (mv Q f) (fres Y f Q)) (seq 0 (m * n)).
  Lemma MY : length Y = M. Proof. unfold Y. apply map_length. Qed.
  Lemma dv_some : forall s l, (l < n)%nat -> arnoldi_DV idx Rs (nth s Y []) (row_of s) l = Some (dv s l) /\ length (dv s l) = N.
  Proof. destruct FR as (_ & WF & _). intros s l Hl. destruct (arn_DV_rec p n Hn Rs WF (nth s Y []) (row_of s) l Hl) as (D & E & LD & _). fold idx in E. unfold dv. rewrite E. split; auto. Qed.
  Lemma vjac_is : va_jac p m us X f = Some vjac.
  Proof.
    pose proof FR as (E & _). unfold va_jac. fold n Y. cbv zeta. rewrite E. fold idx.
    assert (DV : all_some (map (va_DV idx Q Rs Y) (seq 0 n)) = Some (map (fun l => map (fun s => dv s l) (seq 0 M)) (seq 0 n))).
    { apply (ProjGradProofs.all_some_spec nat mat (va_DV idx Q Rs Y) (fun l => map (fun s => dv s l) (seq 0 M))). intros l Il. apply in_seq in Il. unfold va_DV. rewrite MY.
      apply (ProjGradProofs.all_some_spec nat vec (fun s => arnoldi_DV idx Rs (nth s Y []) (map (fun q => vget q s) Q) l) (fun s => dv s l)). intros s _. apply (dv_some s l). lia. }
    rewrite DV. f_equal. unfold vjac. apply map_ext_in. intros i Ii. apply in_seq in Ii. rewrite (nth_map_seq _ (fun l => map (fun s => dv s l) (seq 0 M))) by (apply Nat.mod_upper_bound; lia). unfold fres. rewrite MY. reflexivity.
  Qed.
  Lemma dvdu_ok : forall k l, (l < n)%nat -> length (va_dvdu X (map (fun s => dv s l) (seq 0 M)) k) = M /\ Forall (fun v => length v = N) (va_dvdu X (map (fun s => dv s l) (seq 0 M)) k) /\
    forall b j, (b < M)%nat -> (j < N)%nat -> ent (va_dvdu X (map (fun s => dv s l) (seq 0 M)) k) b j = vget (nth b X []) k * vget (dv b l) j.
  Proof.
    intros k l Hl. unfold va_dvdu. split; [rewrite map_length, seq_length; auto|]. split.
    - apply Forall_forall. intros v I. apply in_map_iff in I. destruct I as [s [<- I]]. apply in_seq in I. rewrite vscale_length. rewrite (nth_map_seq _ (fun s => dv s l)) by (unfold M; lia). apply dv_some. auto.
    - intros b j Hb Hj. unfold ent. rewrite (nth_map_seq _ (fun s => vscale (vget (nth s X []) k) (nth s (map (fun s => dv s l) (seq 0 M)) []))) by auto. rewrite (nth_map_seq _ (fun s => dv s l)) by auto. apply vscale_get.
  Qed.
  Lemma Q_ok : length Q = N /\ Forall (fun q => length q = M) Q /\ length (mv Q f) = N /\ length (fres Y f Q) = M.
  Proof.
    pose proof FR as (_ & _ & LQ & FQ & _). rewrite MY in FQ. split; [exact LQ|]. split; [exact FQ|]. split; [rewrite mv_length; exact LQ|]. rewrite <- MY. apply fres_len. rewrite MY. exact Lf.
  Qed.
  Lemma vjac_cols : length vjac = (m * n)%nat /\ Forall (fun v => length v = M) vjac.
  Proof.
    destruct Q_ok as (LQ & FQ & Lc & Lr). split; [unfold vjac; rewrite map_length, seq_length; auto|]. apply Forall_forall. intros v I. unfold vjac in I. apply in_map_iff in I. destruct I as [i [<- I]]. apply in_seq in I.
    assert (Hl : (i mod n < n)%nat) by (apply Nat.mod_upper_bound; lia). destruct (dvdu_ok (i / n) (i mod n) Hl) as (D1 & D2 & _).
    assert (MP : (0 < M)%nat) by (apply Nat.neq_0_lt_0; intro Z; apply NE; apply length_zero_iff_nil; exact Z).
    apply (vp_col_get M N Q (repeat 1 N) (eye N) _ (mv Q f) (fres Y f Q) 0 LQ FQ (eye_len N) (eye_rows N) D1 D2 Lc Lr MP).
  Qed.
  (** J flat(D) *)
  Definition dirV (ds : list vec) (b j : nat) : R := rsum n (fun l => vget (dv b l) j * rsum m (fun k => vget (nth b X []) k * ent ds l k)).
  Lemma vjac_dir : forall ds a, length ds = n -> (a < M)%nat -> vget (lincomb M vjac (flat m ds)) a =
    - rsum M (fun b => rsum N (fun j => dirV ds b j * (vQ N (ent Q) a b * vget (mv Q f) j + vR N (ent Q) (vget (repeat 1 N)) (ent (eye N)) a j * vget (fres Y f Q) b))).
  Proof.
    intros ds a Ld Ha. destruct vjac_cols as [LJ FJ]. destruct Q_ok as (LQ & FQ & Lc & Lr). rewrite MatLib.lincomb_get by first [assumption | rewrite flat_len, LJ, Ld; reflexivity]. rewrite LJ.
    rewrite (rsum_ext (m * n) _ (fun i => vget (flat m ds) i * vget (vp_col M N Q (repeat 1 N) (eye N) ((fun k l => va_dvdu X (map (fun s => dv s l) (seq 0 M)) k) (i / n)%nat (i mod n)%nat) (mv Q f) (fres Y f Q)) a)).
    2:{ intros i Hi. f_equal. unfold vjac. rewrite (nth_map_seq _ (fun i => vp_col M N Q (repeat 1 N) (eye N) (va_dvdu X (map (fun s => dv s (i mod n)) (seq 0 M)) (i / n)) (mv Q f) (fres Y f Q))) by auto. reflexivity. }
    apply (cols_dir M N m n Q (repeat 1 N) (eye N) (mv Q f) (fres Y f Q) (fun k l => va_dvdu X (map (fun s => dv s l) (seq 0 M)) k) (fun b j l => vget (dv b l) j) (fun b k => vget (nth b X []) k) ds a LQ FQ (eye_len N) (eye_rows N) Lc Lr Ha Ld).
    intros k l Hk Hl. apply dvdu_ok. auto.
  Qed.
End VJ.

(** Derivative of the residual of a linear least squares problem with respect to its matrix (variable projection), in index
    notation.  Library for VarproProofs. *)
Require Import Reals Lra Lia List Bool Arith.
From Verif Require Import RVec Num Sums Deriv.
Import ListNotations.
Local Open Scope R_scope.

Definition kron (i j : nat) : R := if Nat.eqb i j then 1 else 0.
Lemma kron_sum : forall n k f, (k < n)%nat -> rsum n (fun i => kron k i * f i) = f k.
Proof.
  intros n k f Hk. rewrite (rsum_single n k); auto; unfold kron.
  - rewrite Nat.eqb_refl. ring.
  - intros i Hi N. destruct (Nat.eqb_spec k i); [lia|ring].
Qed.
Lemma rsum_term : forall n k f, (forall i, (i < n)%nat -> 0 <= f i) -> (k < n)%nat -> f k <= rsum n f.
Proof. intros n k f H Hk. rewrite (rsum_split n k) by auto. assert (0 <= rsum n (fun i => if Nat.eqb i k then 0 else f i)) by (apply rsum_nonneg; intros i Hi; destruct (Nat.eqb i k); [lra|auto]). lra. Qed.
Lemma kron_sym : forall i j, kron i j = kron j i. Proof. intros. unfold kron. rewrite Nat.eqb_sym. auto. Qed.

(** limits at 0 *)
Definition near (P : R -> Prop) : Prop := exists d, 0 < d /\ forall t, Rabs t < d -> P t.
Lemma near_and : forall P Q, near P -> near Q -> near (fun t => P t /\ Q t).
Proof. intros P Q [d [Hd H]] [e [He K]]. exists (Rmin d e). split; [apply Rmin_pos; auto|]. intros t Ht. pose proof (Rmin_l d e). pose proof (Rmin_r d e). split; [apply H|apply K]; lra. Qed.
Lemma near_all : forall n (P : nat -> R -> Prop), (forall i, (i < n)%nat -> near (P i)) -> near (fun t => forall i, (i < n)%nat -> P i t).
Proof.
  induction n as [|n IH]; intros P H; [exists 1; split; [lra|]; intros; lia|].
  destruct (near_and _ _ (IH P ltac:(intros; apply H; lia)) (H n ltac:(lia))) as [d [Hd K]]. exists d. split; auto. intros t Ht i Hi. destruct (K t Ht) as [K1 K2]. destruct (Nat.eq_dec i n) as [->|]; auto. apply K1. lia.
Qed.
Lemma near_imp : forall P Q : R -> Prop, (forall t, P t -> Q t) -> near P -> near Q.
Proof. intros P Q H [d [Hd K]]. exists d. split; auto. Qed.
Definition cont0 (h : R -> R) : Prop := forall eps, 0 < eps -> near (fun t => Rabs (h t - h 0) < eps).
Lemma deriv_cont0 : forall g l, derivable_pt_lim g 0 l -> cont0 g.
Proof.
  intros g l D eps He. assert (C : continuity_pt g 0) by (apply derivable_continuous_pt; exists l; auto).
  destruct (C eps He) as [a [Ha H]]. exists a. split; [lra|]. intros t Ht. destruct (Req_dec t 0) as [->|N]; [rewrite Rminus_diag_eq, Rabs_R0 by auto; auto|].
  apply (H t). split; [split; [exact I|auto]|]. unfold dist; simpl; unfold R_dist. rewrite Rminus_0_r. auto.
Qed.
Lemma d_close : forall g h l A, derivable_pt_lim g 0 l -> 0 <= A -> near (fun t => Rabs (h t - g t) <= A * (t * t)) -> derivable_pt_lim h 0 l.
Proof.
  intros g h l A D PA [d0 [Hd0 H]] eps He. destruct (D (eps / 2) ltac:(lra)) as [d1 H1]. set (d2 := eps / (2 * (A + 1))). assert (P2 : 0 < d2) by (apply Rdiv_lt_0_compat; lra).
  assert (PD : 0 < Rmin d1 (Rmin d0 d2)) by (repeat apply Rmin_pos; auto; apply cond_pos). exists (mkposreal _ PD). intros t Nt Ht. simpl in Ht.
  pose proof (Rmin_l d1 (Rmin d0 d2)). pose proof (Rmin_r d1 (Rmin d0 d2)). pose proof (Rmin_l d0 d2). pose proof (Rmin_r d0 d2).
  specialize (H1 t Nt ltac:(lra)). rewrite Rplus_0_l in *. pose proof (H t ltac:(lra)) as Ct. pose proof (H 0 ltac:(rewrite Rabs_R0; auto)) as C0. rewrite Rmult_0_l, Rmult_0_r in C0.
  assert (E0 : h 0 = g 0). { pose proof (Rabs_pos (h 0 - g 0)). assert (Z : Rabs (h 0 - g 0) = 0) by lra. destruct (Req_dec (h 0 - g 0) 0) as [E|E]; [lra|]. apply Rabs_no_R0 in E. contradiction. }
  rewrite E0. replace ((h t - g 0) / t - l) with (((g t - g 0) / t - l) + (h t - g t) / t) by (field; auto). eapply Rle_lt_trans; [apply Rabs_triang|].
  assert (T : Rabs ((h t - g t) / t) < eps / 2); [|lra]. unfold Rdiv. rewrite Rabs_mult, Rabs_inv. assert (PT : 0 < Rabs t) by (apply Rabs_pos_lt; auto).
  apply (Rmult_lt_reg_r (Rabs t)); auto. rewrite Rmult_assoc, Rinv_l, Rmult_1_r by lra. eapply Rle_lt_trans; [exact Ct|]. rewrite <- (Rabs_pos_eq (t * t)) by nra. rewrite Rabs_mult. rewrite <- Rmult_assoc. apply Rmult_lt_compat_r; auto.
  apply Rle_lt_trans with (A * d2); [apply Rmult_le_compat_l; lra|]. apply Rlt_le_trans with ((A + 1) * d2); [apply Rmult_lt_compat_r; lra|]. right. unfold d2. field. lra.
Qed.
(** a differentiable function grows at most linearly *)
Lemma d_linear : forall g l, derivable_pt_lim g 0 l -> near (fun t => Rabs (g t - g 0) <= (Rabs l + 1) * Rabs t).
Proof.
  intros g l D. destruct (D 1 ltac:(lra)) as [d H]. exists d. split; [apply cond_pos|]. intros t Ht. destruct (Req_dec t 0) as [->|N]; [rewrite Rminus_diag_eq, Rabs_R0 by auto; lra|].
  specialize (H t N Ht). rewrite Rplus_0_l in H. set (q := (g t - g 0) / t) in *. replace (g t - g 0) with (q * t) by (unfold q; field; auto). rewrite Rabs_mult. apply Rmult_le_compat_r; [apply Rabs_pos|]. replace q with ((q - l) + l) by ring. eapply Rle_trans; [apply Rabs_triang|]. lra.
Qed.

Section VP.
Context (M N : nat) (V : nat -> nat -> R) (Y : nat -> nat -> R) (s : nat -> R) (Z : nat -> nat -> R) (f c r : nat -> R).
Hypothesis YO : forall p q, (p < N)%nat -> (q < N)%nat -> rsum M (fun b => Y p b * Y q b) = kron p q.
Hypothesis ZR : forall p q, (p < N)%nat -> (q < N)%nat -> rsum N (fun j => Z p j * Z q j) = kron p q.
Hypothesis ZC : forall i j, (i < N)%nat -> (j < N)%nat -> rsum N (fun p => Z p i * Z p j) = kron i j.
Hypothesis VE : forall b j, (b < M)%nat -> (j < N)%nat -> V b j = rsum N (fun p => Y p b * s p * Z p j).
Hypothesis SN : forall p, (p < N)%nat -> s p <> 0.
Hypothesis RE : forall b, (b < M)%nat -> r b = f b - rsum N (fun j => V b j * c j).
Hypothesis NE : forall j, (j < N)%nat -> rsum M (fun b => V b j * r b) = 0.
Definition vQ (a b : nat) : R := kron a b - rsum N (fun p => Y p a * Y p b).
Definition vR (a j : nat) : R := rsum N (fun p => Y p a * / s p * Z p j).

Lemma YV : forall p j, (p < N)%nat -> (j < N)%nat -> rsum M (fun b => Y p b * V b j) = s p * Z p j.
Proof.
  intros p j Hp Hj. rewrite (rsum_ext M _ (fun b => rsum N (fun q => Y p b * Y q b * (s q * Z q j)))).
  - rewrite rsum_swap. rewrite (rsum_ext N _ (fun q => kron p q * (s q * Z q j))) by (intros q Hq; rewrite rsum_scal_r, YO by auto; auto). apply (kron_sum N p (fun q => s q * Z q j)). auto.
  - intros b Hb. rewrite VE by auto. rewrite <- rsum_scal_l. apply rsum_ext. intros; ring.
Qed.
Lemma ZV : forall p b, (p < N)%nat -> (b < M)%nat -> rsum N (fun j => Z p j * V b j) = s p * Y p b.
Proof.
  intros p b Hp Hb. rewrite (rsum_ext N _ (fun j => rsum N (fun q => Z p j * Z q j * (s q * Y q b)))).
  - rewrite rsum_swap. rewrite (rsum_ext N _ (fun q => kron p q * (s q * Y q b))) by (intros q Hq; rewrite rsum_scal_r, ZR by auto; auto). apply (kron_sum N p (fun q => s q * Y q b)). auto.
  - intros j Hj. rewrite VE by auto. rewrite <- rsum_scal_l. apply rsum_ext. intros; ring.
Qed.
Lemma QV : forall a j, (a < M)%nat -> (j < N)%nat -> rsum M (fun b => vQ a b * V b j) = 0.
Proof.
  intros a j Ha Hj. unfold vQ. rewrite (rsum_ext M _ (fun b => kron a b * V b j - rsum N (fun p => Y p a * (Y p b * V b j)))).
  - rewrite rsum_minus, (kron_sum M a (fun b => V b j)) by auto. rewrite rsum_swap. rewrite (rsum_ext N _ (fun p => Y p a * s p * Z p j)); [rewrite <- VE by auto; ring|]. intros p Hp. rewrite rsum_scal_l, YV by auto. ring.
  - intros b Hb. rewrite Rmult_minus_distr_r. f_equal. rewrite <- rsum_scal_r. apply rsum_ext. intros; ring.
Qed.
Lemma RV : forall a b, (b < M)%nat -> rsum N (fun j => vR a j * V b j) = rsum N (fun p => Y p a * Y p b).
Proof.
  intros a b Hb. unfold vR. rewrite (rsum_ext N _ (fun j => rsum N (fun p => Y p a * / s p * (Z p j * V b j)))) by (intros; rewrite <- rsum_scal_r; apply rsum_ext; intros; ring).
  rewrite rsum_swap. apply rsum_ext. intros p Hp. rewrite rsum_scal_l, ZV by auto. field. auto.
Qed.
(** left inverse of V *)
Lemma RV_inv : forall j l, (j < N)%nat -> (l < N)%nat -> rsum M (fun b => vR b j * V b l) = kron j l.
Proof.
  intros j l Hj Hl. unfold vR. rewrite (rsum_ext M _ (fun b => rsum N (fun p => / s p * Z p j * (Y p b * V b l)))) by (intros; rewrite <- rsum_scal_r; apply rsum_ext; intros; ring).
  rewrite rsum_swap. rewrite <- (ZC j l) by auto. apply rsum_ext. intros p Hp. rewrite rsum_scal_l, YV by auto. field. auto.
Qed.
Lemma Yr : forall p, (p < N)%nat -> rsum M (fun b => Y p b * r b) = 0.
Proof.
  intros p Hp. apply (Rmult_eq_reg_l (s p)); [|auto]. rewrite Rmult_0_r, <- rsum_scal_l.
  rewrite (rsum_ext M _ (fun b => rsum N (fun j => Z p j * (V b j * r b)))).
  - rewrite rsum_swap. apply rsum_zero. intros j Hj. rewrite rsum_scal_l, NE by auto. ring.
  - intros b Hb. rewrite <- Rmult_assoc, <- ZV by auto. rewrite <- rsum_scal_r. apply rsum_ext. intros; ring.
Qed.
Lemma Qf : forall a, (a < M)%nat -> rsum M (fun b => vQ a b * f b) = r a.
Proof.
  intros a Ha. rewrite (rsum_ext M _ (fun b => vQ a b * r b + rsum N (fun j => vQ a b * V b j * c j))).
  - rewrite rsum_plus, rsum_swap. rewrite (rsum_zero N) by (intros j Hj; rewrite rsum_scal_r, QV by auto; ring). rewrite Rplus_0_r. unfold vQ.
    rewrite (rsum_ext M _ (fun b => kron a b * r b - rsum N (fun p => Y p a * (Y p b * r b)))) by (intros b Hb; rewrite Rmult_minus_distr_r; f_equal; rewrite <- rsum_scal_r; apply rsum_ext; intros; ring).
    rewrite rsum_minus, (kron_sum M a r) by auto. rewrite rsum_swap. rewrite (rsum_zero N); [ring|]. intros p Hp. rewrite rsum_scal_l, Yr by auto. ring.
  - intros b Hb. rewrite RE by auto. rewrite (rsum_ext N (fun j => vQ a b * V b j * c j) (fun j => vQ a b * (V b j * c j))) by (intros; ring). rewrite rsum_scal_l. ring.
Qed.
(** the exact change of the residual *)
Lemma vp_identity : forall (V' : nat -> nat -> R) (c' r' : nat -> R) a, (a < M)%nat -> (forall b, (b < M)%nat -> r' b = f b - rsum N (fun j => V' b j * c' j)) -> (forall j, (j < N)%nat -> rsum M (fun b => V' b j * r' b) = 0) ->
  r' a - r a = - rsum M (fun b => rsum N (fun j => (V' b j - V b j) * (vQ a b * c' j + vR a j * r' b))).
Proof.
  intros V' c' r' a Ha RE' NE'.
  rewrite (rsum_ext M _ (fun b => (vQ a b * rsum N (fun j => V' b j * c' j) - rsum N (fun j => vQ a b * V b j * c' j)) + (rsum N (fun j => vR a j * (V' b j * r' b)) - rsum N (fun j => vR a j * V b j) * r' b))).
  - rewrite rsum_plus, !rsum_minus. rewrite (rsum_swap M N (fun b j => vQ a b * V b j * c' j)). rewrite (rsum_zero N (fun j => rsum M (fun b => vQ a b * V b j * c' j))) by (intros j Hj; rewrite rsum_scal_r, QV by auto; ring).
    rewrite (rsum_swap M N (fun b j => vR a j * (V' b j * r' b))). rewrite (rsum_zero N (fun j => rsum M (fun b => vR a j * (V' b j * r' b)))) by (intros j Hj; rewrite rsum_scal_l, NE' by auto; ring).
    rewrite (rsum_ext M (fun b => vQ a b * rsum N (fun j => V' b j * c' j)) (fun b => vQ a b * f b - vQ a b * r' b)) by (intros b Hb; rewrite (RE' b) by auto; ring). rewrite rsum_minus, Qf by auto.
    rewrite (rsum_ext M (fun b => rsum N (fun j => vR a j * V b j) * r' b) (fun b => kron a b * r' b - vQ a b * r' b)) by (intros b Hb; rewrite RV by auto; unfold vQ; ring). rewrite rsum_minus, (kron_sum M a r') by auto. ring.
  - intros b Hb. rewrite <- rsum_scal_l, <- rsum_minus, <- rsum_scal_r, <- rsum_minus, <- rsum_plus. apply rsum_ext. intros j Hj. ring.
Qed.

(* ---------- bounds ---------- *)
Let Phi := sqrt (rsum M (fun b => f b * f b)).
Let K := rsum M (fun b => rsum N (fun j => Rabs (vR b j))).
Lemma Phi_sq : Phi * Phi = rsum M (fun b => f b * f b).
Proof. apply sqrt_sqrt. apply rsum_nonneg. intros. nra. Qed.
Lemma fit_bounds : forall (V' : nat -> nat -> R) (c' r' : nat -> R), (forall b, (b < M)%nat -> r' b = f b - rsum N (fun j => V' b j * c' j)) -> (forall j, (j < N)%nat -> rsum M (fun b => V' b j * r' b) = 0) ->
  forall b, (b < M)%nat -> Rabs (f b - r' b) <= Phi /\ Rabs (r' b) <= Phi.
Proof.
  intros V' c' r' RE' NE'. set (w := fun b => rsum N (fun j => V' b j * c' j)).
  assert (OR : rsum M (fun b => r' b * w b) = 0).
  { unfold w. rewrite (rsum_ext M _ (fun b => rsum N (fun j => c' j * (V' b j * r' b)))) by (intros; rewrite <- rsum_scal_l; apply rsum_ext; intros; ring). rewrite rsum_swap. apply rsum_zero. intros j Hj. rewrite rsum_scal_l, NE' by auto. ring. }
  assert (PY : rsum M (fun b => f b * f b) = rsum M (fun b => r' b * r' b) + rsum M (fun b => w b * w b)).
  { rewrite (rsum_ext M (fun b => f b * f b) (fun b => (r' b * r' b + w b * w b) + 2 * (r' b * w b))) by (intros b Hb; rewrite (RE' b) by auto; fold (w b); ring). rewrite rsum_plus, rsum_scal_l, OR, rsum_plus. ring. }
  assert (SQ : forall g b, (b < M)%nat -> rsum M (fun b => g b * g b) <= rsum M (fun b => f b * f b) -> Rabs (g b) <= Phi).
  { intros g b Hb H. apply Rsqr_incr_0_var; [|apply sqrt_pos]. rewrite <- Rsqr_abs. unfold Rsqr. rewrite Phi_sq. apply Rle_trans with (2 := H).
    apply (rsum_term M b (fun b => g b * g b)); auto. intros; nra. }
  assert (N1 : 0 <= rsum M (fun b => r' b * r' b)) by (apply rsum_nonneg; intros; nra). assert (N2 : 0 <= rsum M (fun b => w b * w b)) by (apply rsum_nonneg; intros; nra).
  intros b Hb. split; [|apply SQ; auto; lra]. rewrite (RE' b) by auto. fold (w b). replace (f b - (f b - w b)) with (w b) by ring. apply SQ; auto. lra.
Qed.
Lemma K_pos : 0 <= K. Proof. apply rsum_nonneg. intros. apply rsum_nonneg. intros. apply Rabs_pos. Qed.
Lemma Phi_pos : 0 <= Phi. Proof. apply sqrt_pos. Qed.
Lemma coef_bound : forall (V' : nat -> nat -> R) (c' r' : nat -> R) e, (forall b, (b < M)%nat -> r' b = f b - rsum N (fun j => V' b j * c' j)) -> (forall j, (j < N)%nat -> rsum M (fun b => V' b j * r' b) = 0) ->
  0 <= e -> K * e <= / 2 -> (forall b j, (b < M)%nat -> (j < N)%nat -> Rabs (V' b j - V b j) <= e) -> rsum N (fun j => Rabs (c' j)) <= 2 * K * Phi.
Proof.
  intros V' c' r' e RE' NE' He HK HV. set (C := rsum N (fun j => Rabs (c' j))). assert (PC : 0 <= C) by (apply rsum_nonneg; intros; apply Rabs_pos).
  assert (H1 : C <= K * (Phi + e * C)).
  { unfold C at 1. unfold K. rewrite rsum_swap. rewrite <- rsum_scal_r. apply rsum_le. intros j Hj.
    assert (E : c' j = rsum M (fun b => vR b j * (f b - r' b - rsum N (fun l => (V' b l - V b l) * c' l)))).
    { rewrite (rsum_ext M _ (fun b => rsum N (fun l => vR b j * V b l * c' l))).
      - rewrite rsum_swap. rewrite (rsum_ext N _ (fun l => kron j l * c' l)) by (intros l Hl; rewrite rsum_scal_r, RV_inv by auto; auto). symmetry. apply kron_sum. auto.
      - intros b Hb. rewrite (RE' b) by auto. replace (f b - (f b - rsum N (fun j0 => V' b j0 * c' j0)) - rsum N (fun l => (V' b l - V b l) * c' l)) with (rsum N (fun j0 => V' b j0 * c' j0) - rsum N (fun l => (V' b l - V b l) * c' l)) by ring. rewrite <- rsum_minus, <- rsum_scal_l. apply rsum_ext. intros; ring. }
    rewrite E. eapply Rle_trans; [apply rsum_abs|]. rewrite <- rsum_scal_r. apply rsum_le. intros b Hb. rewrite Rabs_mult. apply Rmult_le_compat_l; [apply Rabs_pos|].
    eapply Rle_trans; [unfold Rminus at 1; apply Rabs_triang|]. rewrite Rabs_Ropp. apply Rplus_le_compat; [apply (fit_bounds V' c' r' RE' NE' b Hb)|]. eapply Rle_trans; [apply rsum_abs|]. unfold C. rewrite <- rsum_scal_l. apply rsum_le. intros l Hl. rewrite Rabs_mult. apply Rmult_le_compat_r; [apply Rabs_pos|auto]. }
  assert (K * e * C <= / 2 * C) by (apply Rmult_le_compat_r; auto). assert (K * (Phi + e * C) = K * Phi + K * e * C) by ring. lra.
Qed.
(** residual and coefficients depend Lipschitz continuously on the matrix *)
Lemma vp_lipschitz : exists L, 0 <= L /\ forall (V' : nat -> nat -> R) (c' r' : nat -> R) e, (forall b, (b < M)%nat -> r' b = f b - rsum N (fun j => V' b j * c' j)) -> (forall j, (j < N)%nat -> rsum M (fun b => V' b j * r' b) = 0) ->
  0 <= e -> K * e <= / 2 -> (forall b j, (b < M)%nat -> (j < N)%nat -> Rabs (V' b j - V b j) <= e) ->
  (forall a, (a < M)%nat -> Rabs (r' a - r a) <= e * L) /\ forall j, (j < N)%nat -> Rabs (c' j - c j) <= e * L.
Proof.
  set (L1 := rsum M (fun a => rsum M (fun b => rsum N (fun j => Rabs (vQ a b) * (2 * K * Phi) + Rabs (vR a j) * Phi)))).
  assert (P1 : 0 <= L1). { pose proof K_pos. pose proof Phi_pos. repeat (apply rsum_nonneg; intros). assert (0 <= 2 * K * Phi) by (apply Rmult_le_pos; lra). apply Rplus_le_le_0_compat; apply Rmult_le_pos; auto; apply Rabs_pos. }
  exists (L1 + K * (L1 + 2 * K * Phi)). pose proof K_pos as PK. pose proof Phi_pos as PP. assert (P2 : 0 <= 2 * K * Phi) by (apply Rmult_le_pos; lra). assert (P3 : 0 <= K * (L1 + 2 * K * Phi)) by (apply Rmult_le_pos; lra). split; [lra|].
  intros V' c' r' e RE' NE' He HK HV. pose proof (coef_bound V' c' r' e RE' NE' He HK HV) as CB.
  assert (CJ : forall j, (j < N)%nat -> Rabs (c' j) <= 2 * K * Phi).
  { intros j Hj. eapply Rle_trans; [|exact CB]. apply (rsum_term N j (fun j => Rabs (c' j))); auto. intros; apply Rabs_pos. }
  assert (RB : forall a, (a < M)%nat -> Rabs (r' a - r a) <= e * L1).
  { intros a Ha. rewrite (vp_identity V' c' r' a Ha RE' NE'). rewrite Rabs_Ropp. eapply Rle_trans; [apply rsum_abs|].
    apply Rle_trans with (e * rsum M (fun b => rsum N (fun j => Rabs (vQ a b) * (2 * K * Phi) + Rabs (vR a j) * Phi))).
    - rewrite <- rsum_scal_l. apply rsum_le. intros b Hb. eapply Rle_trans; [apply rsum_abs|]. rewrite <- rsum_scal_l. apply rsum_le. intros j Hj. rewrite Rabs_mult. apply Rmult_le_compat; try apply Rabs_pos; auto.
      eapply Rle_trans; [apply Rabs_triang|]. rewrite !Rabs_mult. apply Rplus_le_compat; apply Rmult_le_compat_l; try apply Rabs_pos; auto. apply (fit_bounds V' c' r' RE' NE' b Hb).
    - apply Rmult_le_compat_l; auto. unfold L1. apply (rsum_term M a (fun a => rsum M (fun b => rsum N (fun j => Rabs (vQ a b) * (2 * K * Phi) + Rabs (vR a j) * Phi)))); auto. intros; repeat (apply rsum_nonneg; intros); apply Rplus_le_le_0_compat; apply Rmult_le_pos; auto; apply Rabs_pos. }
  split; [intros a Ha; eapply Rle_trans; [apply RB; auto|]; apply Rmult_le_compat_l; lra|].
  intros j Hj. assert (E : c' j - c j = rsum M (fun b => vR b j * (- (r' b - r b) - rsum N (fun l => (V' b l - V b l) * c' l)))).
  { rewrite (rsum_ext M _ (fun b => rsum N (fun l => vR b j * V b l * (c' l - c l)))).
    - rewrite rsum_swap. rewrite (rsum_ext N _ (fun l => kron j l * (c' l - c l))) by (intros l Hl; rewrite rsum_scal_r, RV_inv by auto; auto). symmetry. apply (kron_sum N j (fun l => c' l - c l)). auto.
    - intros b Hb. rewrite (RE' b), (RE b) by auto. replace (- (f b - rsum N (fun j0 => V' b j0 * c' j0) - (f b - rsum N (fun j0 => V b j0 * c j0))) - rsum N (fun l => (V' b l - V b l) * c' l)) with (rsum N (fun j0 => V' b j0 * c' j0) - rsum N (fun j0 => V b j0 * c j0) - rsum N (fun l => (V' b l - V b l) * c' l)) by ring. rewrite <- !rsum_minus, <- rsum_scal_l. apply rsum_ext. intros; ring. }
  rewrite E. eapply Rle_trans; [apply rsum_abs|]. apply Rle_trans with (e * (K * (L1 + 2 * K * Phi))); [|apply Rmult_le_compat_l; lra].
  apply Rle_trans with (rsum M (fun b => Rabs (vR b j) * (e * (L1 + 2 * K * Phi)))).
  - apply rsum_le. intros b Hb. rewrite Rabs_mult. apply Rmult_le_compat_l; [apply Rabs_pos|]. unfold Rminus at 1. eapply Rle_trans; [apply Rabs_triang|]. rewrite !Rabs_Ropp. rewrite Rmult_plus_distr_l. apply Rplus_le_compat; auto.
    eapply Rle_trans; [apply rsum_abs|]. apply Rle_trans with (e * rsum N (fun j => Rabs (c' j))); [|apply Rmult_le_compat_l; auto]. rewrite <- rsum_scal_l. apply rsum_le. intros l Hl. rewrite Rabs_mult. apply Rmult_le_compat_r; [apply Rabs_pos|auto].
  - rewrite rsum_scal_r. replace (e * (K * (L1 + 2 * K * Phi))) with (K * (e * (L1 + 2 * K * Phi))) by ring. apply Rmult_le_compat_r; [apply Rmult_le_pos; lra|]. unfold K. apply rsum_le. intros b Hb. apply (rsum_term N j (fun j => Rabs (vR b j))); auto. intros; apply Rabs_pos.
Qed.
(** derivative of the residual along a differentiable family of matrices *)
Theorem vp_derivative : forall (dV : nat -> nat -> R) (Wt : R -> nat -> nat -> R) (rt : R -> nat -> R) a, (a < M)%nat ->
  (forall b j, (b < M)%nat -> (j < N)%nat -> Wt 0 b j = V b j) -> (forall b j, (b < M)%nat -> (j < N)%nat -> derivable_pt_lim (fun t => Wt t b j) 0 (dV b j)) ->
  near (fun t => exists ct : nat -> R, (forall b, (b < M)%nat -> rt t b = f b - rsum N (fun j => Wt t b j * ct j)) /\ (forall j, (j < N)%nat -> rsum M (fun b => Wt t b j * rt t b) = 0)) ->
  derivable_pt_lim (fun t => rt t a) 0 (- rsum M (fun b => rsum N (fun j => dV b j * (vQ a b * c j + vR a j * r b)))).
Proof.
  intros dV Wt rt a Ha W0 DW NR. destruct vp_lipschitz as [L [PL HL]]. pose proof K_pos as PK.
  set (l1 := rsum M (fun b => rsum N (fun j => Rabs (dV b j) + 1))). assert (Pl1 : 0 <= l1) by (repeat (apply rsum_nonneg; intros); pose proof (Rabs_pos (dV i i0)); lra).
  assert (CW : near (fun t => forall b j, (b < M)%nat -> (j < N)%nat -> Rabs (Wt t b j - V b j) <= l1 * Rabs t)).
  { apply (near_imp (fun t => forall b, (b < M)%nat -> forall j, (j < N)%nat -> Rabs (Wt t b j - V b j) <= l1 * Rabs t)); [auto|]. apply near_all. intros b Hb. apply near_all. intros j Hj.
    apply (near_imp (fun t => Rabs (Wt t b j - Wt 0 b j) <= (Rabs (dV b j) + 1) * Rabs t)); [|apply d_linear; auto]. intros t Ht. rewrite <- (W0 b j) by auto. eapply Rle_trans; [exact Ht|]. apply Rmult_le_compat_r; [apply Rabs_pos|].
    apply Rle_trans with (rsum N (fun j => Rabs (dV b j) + 1)).
    - apply (rsum_term N j (fun j => Rabs (dV b j) + 1)); auto. intros i Hi. pose proof (Rabs_pos (dV b i)). lra.
    - apply (rsum_term M b (fun b => rsum N (fun j => Rabs (dV b j) + 1))); auto. intros i Hi. apply rsum_nonneg. intros k Hk. pose proof (Rabs_pos (dV i k)). lra. }
  set (h0 := fun b j => vQ a b * c j + vR a j * r b).
  assert (D1 : derivable_pt_lim (fun t => r a - rsum M (fun b => rsum N (fun j => (Wt t b j - V b j) * h0 b j))) 0 (- rsum M (fun b => rsum N (fun j => dV b j * h0 b j)))).
  { eapply d_ext; [intro t; reflexivity| |apply d_minus; [apply d_const|]].
    2:{ apply (d_rsum M (fun b t => rsum N (fun j => (Wt t b j - V b j) * h0 b j)) (fun b => rsum N (fun j => dV b j * h0 b j))). intros b Hb. apply (d_rsum N (fun j t => (Wt t b j - V b j) * h0 b j) (fun j => dV b j * h0 b j)). intros j Hj.
        eapply d_ext; [intro t; apply Rmult_comm| |apply d_scal, d_minus; [apply DW; auto|apply d_const]]. ring. }
    ring. }
  set (S0 := rsum M (fun b => rsum N (fun j => Rabs (vQ a b) + Rabs (vR a j)))). assert (PS : 0 <= S0) by (repeat (apply rsum_nonneg; intros); apply Rplus_le_le_0_compat; apply Rabs_pos).
  apply (d_close _ _ _ (l1 * (l1 * L) * S0) D1); [repeat apply Rmult_le_pos; auto|].
  assert (SM : near (fun t => K * (l1 * Rabs t) <= / 2)).
  { exists (/ (2 * (K * l1 + 1))). assert (P : 0 <= K * l1) by (apply Rmult_le_pos; auto). split; [apply Rinv_0_lt_compat; lra|]. intros t Ht. apply Rle_trans with ((K * l1 + 1) * / (2 * (K * l1 + 1))); [|right; field; lra]. rewrite <- Rmult_assoc. apply Rmult_le_compat; try lra. apply Rabs_pos. }
  destruct (near_and _ _ SM (near_and _ _ NR CW)) as [d [Hd H]]. exists d. split; auto. intros t Ht. destruct (H t Ht) as [HK [[ct [A1 A2]] A3]]. set (e := l1 * Rabs t) in *. assert (Pe : 0 <= e) by (apply Rmult_le_pos; auto; apply Rabs_pos).
  destruct (HL (Wt t) ct (rt t) e A1 A2 Pe HK A3) as [B1 B2]. pose proof (vp_identity (Wt t) ct (rt t) a Ha A1 A2) as ID.
  replace (rt t a - (r a - rsum M (fun b => rsum N (fun j => (Wt t b j - V b j) * h0 b j)))) with (- (rsum M (fun b => rsum N (fun j => (Wt t b j - V b j) * (vQ a b * (ct j - c j) + vR a j * (rt t b - r b)))))).
  - rewrite Rabs_Ropp. eapply Rle_trans; [apply rsum_abs|]. replace (l1 * (l1 * L) * S0 * (t * t)) with (e * (e * L) * S0) by (unfold e; replace (t * t) with (Rabs t * Rabs t) by (rewrite <- Rabs_mult; apply Rabs_pos_eq; nra); ring). unfold S0. rewrite <- rsum_scal_l. apply rsum_le. intros b Hb.
    eapply Rle_trans; [apply rsum_abs|]. rewrite <- rsum_scal_l. apply rsum_le. intros j Hj. rewrite Rabs_mult, Rmult_assoc. apply Rmult_le_compat; try apply Rabs_pos; auto. eapply Rle_trans; [apply Rabs_triang|]. rewrite !Rabs_mult. rewrite Rmult_plus_distr_l, !(Rmult_comm (e * L)). apply Rplus_le_compat; apply Rmult_le_compat_l; try apply Rabs_pos; auto.
  - assert (E : rsum M (fun b => rsum N (fun j => (Wt t b j - V b j) * (vQ a b * ct j + vR a j * rt t b))) = rsum M (fun b => rsum N (fun j => (Wt t b j - V b j) * (vQ a b * (ct j - c j) + vR a j * (rt t b - r b)))) + rsum M (fun b => rsum N (fun j => (Wt t b j - V b j) * h0 b j))).
    { rewrite <- rsum_plus. apply rsum_ext. intros b Hb. rewrite <- rsum_plus. apply rsum_ext. intros j Hj. unfold h0. ring. }
    lra.
Qed.
End VP.

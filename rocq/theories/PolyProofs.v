(** Tensor product polynomial bases: derivative matrices, product with a coefficient matrix, scaling and
    roots, fitted bounds (C22, C23, C25, C60). *)
Require Import Reals Lra Lia List Bool Arith Psatz.
From Verif Require Import RVec Num Sums NormProofs DomMoreModel HullProofs HullIneqProofs ChebProofs VecTac Deriv BasisModel IndexProofs.
Import ListNotations.
Local Open Scope R_scope.

(* ---------------- univariate families ---------------- *)
(** the derivative coefficients describe the derivatives of the polynomials and lower the degree *)
Definition fam_ok (F : family) : Prop :=
  (forall a b, (a <= b)%nat -> dco F a b = 0) /\
  forall a x, derivable_pt_lim (phi F a) x (rsum a (fun b => dco F a b * phi F b x)).

Theorem monomials_ok : fam_ok monomials.
Proof.
  split.
  - intros a b H. simpl. destruct (Nat.eqb_spec a (S b)); [lia|auto].
  - intros a x. simpl. destruct a as [|a].
    + simpl. apply d_const.
    + eapply d_ext with (f := fun t => t ^ S a) (l := INR (S a) * x ^ pred (S a)); [reflexivity| |apply derivable_pt_lim_pow].
      rewrite (rsum_single (S a) a).
      * rewrite Nat.eqb_refl. reflexivity.
      * lia.
      * intros i Hi N. destruct (Nat.eqb_spec (S a) (S i)); [lia|ring].
Qed.

Lemma rec3_fst_S : forall p0 p1 step n, fst (rec3 p0 p1 step (S n)) = snd (rec3 p0 p1 step n).
Proof. intros. simpl. destruct (rec3 p0 p1 step n). reflexivity. Qed.
Lemma rec3_SS : forall p0 p1 step n, fst (rec3 p0 p1 step (S (S n))) = step (S n) (fst (rec3 p0 p1 step (S n))) (fst (rec3 p0 p1 step n)).
Proof. intros. rewrite !rec3_fst_S. simpl. destruct (rec3 p0 p1 step n). reflexivity. Qed.

Lemma two_step : forall P : nat -> Prop, P O -> P 1%nat -> (forall n, P n -> P (S n) -> P (S (S n))) -> forall n, P n.
Proof. intros P H0 H1 HS n. assert (H : P n /\ P (S n)); [|tauto]. induction n; intuition. Qed.

(** Hermite *)
Theorem hermite_ok : fam_ok hermite.
Proof.
  split.
  - intros a b H. simpl. destruct (Nat.eqb_spec a (S b)); [lia|auto].
  - assert (G : forall a x, derivable_pt_lim (herm a) x (match a with O => 0 | S b => 2 * INR a * herm b x end)).
    { intros a x. revert a. apply two_step.
      - apply d_ext with (f := fun _ => 1) (l := 0); auto. apply d_const.
      - apply d_ext with (f := fun t => 2 * t + 0) (l := 2); [intro; unfold herm; simpl; ring|unfold herm; simpl; ring|apply d_lin].
      - intros n H0 H1.
        assert (R : forall t, herm (S (S n)) t = herm (S n) t * (2 * t) - herm n t * (2 * (INR (S (S n)) - 1))) by (intro t; unfold herm; rewrite rec3_SS; reflexivity).
        eapply d_ext; [intro t; symmetry; apply R| |apply d_minus; [apply d_mult; [exact H1|apply d_scal, d_id]|apply (d_mult (herm n) (fun _ => 2 * (INR (S (S n)) - 1))); [exact H0|apply d_const]]].
        cbv beta. destruct n as [|n].
        + unfold herm. simpl. ring.
        + assert (R' : herm (S (S n)) x = herm (S n) x * (2 * x) - herm n x * (2 * (INR (S (S n)) - 1))) by (unfold herm; rewrite rec3_SS; reflexivity).
          rewrite R'. rewrite !S_INR. ring. }
    intros a x. eapply d_ext; [reflexivity| |apply G]. destruct a as [|a]; [reflexivity|]. cbn [dco phi hermite].
    rewrite (rsum_single (S a) a); [rewrite Nat.eqb_refl; reflexivity|lia|]. intros i Hi N. destruct (Nat.eqb_spec (S a) (S i)); [lia|ring].
Qed.

(** Laguerre *)
Lemma lag_rec : forall n t, lag (S (S n)) t = (lag (S n) t * (2 * INR (S (S n)) - 1 - t) - lag n t * (INR (S (S n)) - 1)) / INR (S (S n)).
Proof. intros. unfold lag. rewrite rec3_SS. reflexivity. Qed.
Theorem laguerre_ok : fam_ok laguerre.
Proof.
  split.
  - intros a b H. simpl. destruct (Nat.ltb_spec b a); [lia|auto].
  - set (D := fun a x => - rsum a (fun b => lag b x)).
    assert (B : forall n x, x * D (S n) x = INR (S n) * (lag (S n) x - lag n x)).
    { induction n as [|n IH]; intro x.
      - unfold D, lag. simpl. ring.
      - assert (E : D (S (S n)) x = D (S n) x - lag (S n) x) by (unfold D; simpl; ring).
        rewrite E. rewrite Rmult_minus_distr_l, IH. rewrite lag_rec. rewrite !S_INR. pose proof (pos_INR n). field. lra. }
    assert (G : forall a x, derivable_pt_lim (lag a) x (D a x)).
    { intros a x. revert a. apply two_step.
      - eapply d_ext with (f := fun _ => 1) (l := 0); auto; [unfold D; simpl; ring|apply d_const].
      - apply d_ext with (f := fun t => (-1) * t + 1) (l := -1); [intro; unfold lag; simpl; ring|unfold D, lag; simpl; ring|apply d_lin].
      - intros n H0 H1. pose proof (pos_INR n) as PN.
        eapply d_ext with (f := fun t => / INR (S (S n)) * (lag (S n) t * (2 * INR (S (S n)) - 1 - t) - (INR (S (S n)) - 1) * lag n t));
          [intro t; rewrite lag_rec; unfold Rdiv; ring| |apply d_scal; apply d_minus; [apply d_mult; [exact H1|apply d_minus; [apply d_const|apply d_id]]|apply d_scal; exact H0]].
        pose proof (B n x) as BN. assert (E1 : D (S n) x = D n x - lag n x) by (unfold D; simpl; ring).
        assert (E2 : D (S (S n)) x = D (S n) x - lag (S n) x) by (unfold D; simpl; ring).
        rewrite E2. replace (D n x) with (D (S n) x + lag n x) by (rewrite E1; ring). rewrite !S_INR in *.
        apply Rmult_eq_reg_l with (INR n + 1 + 1); [|lra]. rewrite <- Rmult_assoc, Rinv_r by lra. lra. }
    intros a x. eapply d_ext; [reflexivity| |apply G]. unfold D. rewrite <- rsum_opp. apply rsum_ext. intros b Hb. simpl.
    destruct (Nat.ltb_spec b a); [ring|lia].
Qed.

(** sums over the indices below a with odd distance: peel off two *)
Lemma odd_gap_rec : forall a b, (b < a)%nat -> odd_gap (S (S a)) b = odd_gap a b.
Proof.
  intros a b H. unfold odd_gap. destruct (Nat.ltb_spec b (S (S a))), (Nat.ltb_spec b a); try lia.
  replace (S (S a) - b)%nat with (S (S (a - b))) by lia. reflexivity.
Qed.
Lemma odd_gap_a : forall a, odd_gap (S (S a)) a = false.
Proof. intro a. unfold odd_gap. replace (S (S a) - a)%nat with 2%nat by lia. destruct (Nat.ltb _ _); reflexivity. Qed.
Lemma odd_gap_Sa : forall a, odd_gap (S (S a)) (S a) = true.
Proof. intro a. unfold odd_gap. replace (S (S a) - S a)%nat with 1%nat by lia. destruct (Nat.ltb_spec (S a) (S (S a))); [reflexivity|lia]. Qed.

(** Legendre *)
Lemma leg_rec : forall n t, INR (S (S n)) * leg (S (S n)) t = leg (S n) t * t * (2 * INR (S (S n)) - 1) - leg n t * (INR (S (S n)) - 1).
Proof. intros. unfold leg. rewrite rec3_SS. cbv beta. rewrite S_INR. pose proof (pos_INR (S n)). field. lra. Qed.
Theorem legendre_ok : fam_ok legendre.
Proof.
  split.
  - intros a b H. simpl. unfold odd_gap. destruct (Nat.ltb_spec b a); [lia|auto].
  - set (D := fun a x => rsum a (fun b => (if odd_gap a b then 2 * INR b + 1 else 0) * leg b x)).
    assert (DR : forall n x, D (S (S n)) x = D n x + (2 * INR (S n) + 1) * leg (S n) x).
    { intros n x. unfold D. cbn [rsum]. rewrite odd_gap_a, odd_gap_Sa.
      rewrite (rsum_ext n _ (fun b => (if odd_gap n b then 2 * INR b + 1 else 0) * leg b x)) by (intros; rewrite odd_gap_rec by auto; reflexivity). ring. }
    (* the three classical identities for D *)
    assert (ID : forall n x, D (S n) x = INR (S n) * leg n x + x * D n x /\ x * D (S n) x - D n x = INR (S n) * leg (S n) x
                 /\ (1 - x * x) * D (S n) x = INR (S n) * (leg n x - x * leg (S n) x)).
    { induction n as [|n IH]; intro x.
      - unfold D, leg, odd_gap. simpl. repeat split; ring.
      - destruct (IH x) as [A [Bn Cn]]. pose proof (leg_rec n x) as L. pose proof (DR n x) as R. rewrite !S_INR in *.
        assert (A' : D (S (S n)) x = (INR n + 1 + 1) * leg (S n) x + x * D (S n) x) by lra.
        assert (B' : x * D (S (S n)) x - D (S n) x = (INR n + 1 + 1) * leg (S (S n)) x).
        { rewrite A', L.
          replace (x * ((INR n + 1 + 1) * leg (S n) x + x * D (S n) x) - D (S n) x) with ((INR n + 1 + 1) * x * leg (S n) x - (1 - x * x) * D (S n) x) by ring.
          rewrite Cn. ring. }
        repeat split; auto. rewrite A'.
        replace ((1 - x * x) * ((INR n + 1 + 1) * leg (S n) x + x * D (S n) x)) with ((INR n + 1 + 1) * (1 - x * x) * leg (S n) x + x * ((1 - x * x) * D (S n) x)) by ring.
        rewrite Cn. replace ((INR n + 1 + 1) * (leg (S n) x - x * leg (S (S n)) x)) with ((INR n + 1 + 1) * leg (S n) x - x * ((INR n + 1 + 1) * leg (S (S n)) x)) by ring.
        rewrite L. ring. }
    assert (G : forall a x, derivable_pt_lim (leg a) x (D a x)).
    { intros a x. revert a. apply two_step.
      - eapply d_ext with (f := fun _ => 1) (l := 0); auto; apply d_const.
      - apply d_ext with (f := fun t => 1 * t + 0) (l := 1); [intro; unfold leg; simpl; ring|unfold D, leg, odd_gap; simpl; ring|apply d_lin].
      - intros n H0 H1. pose proof (pos_INR n) as PN.
        eapply d_ext with (f := fun t => / INR (S (S n)) * ((2 * INR (S (S n)) - 1) * (leg (S n) t * t) - (INR (S (S n)) - 1) * leg n t));
          [intro t| |apply d_scal; apply d_minus; [apply d_scal; apply d_mult; [exact H1|apply d_id]|apply d_scal; exact H0]].
        + pose proof (leg_rec n t) as L. apply Rmult_eq_reg_l with (INR (S (S n))); [|rewrite !S_INR; lra]. rewrite L, <- Rmult_assoc, Rinv_r by (rewrite !S_INR; lra). ring.
        + destruct (ID (S n) x) as [A2 [B2 _]]. destruct (ID n x) as [A1 [B1 _]]. pose proof (leg_rec n x) as L. pose proof (DR n x) as R. rewrite !S_INR in *.
          apply Rmult_eq_reg_l with (INR n + 1 + 1); [|lra]. rewrite <- Rmult_assoc, Rinv_r by lra.
          assert (K : D n x = x * D (S n) x - (INR n + 1) * leg (S n) x) by lra. rewrite A2. rewrite K. ring. }
    intros a x. exact (G a x).
Qed.

(** Chebyshev, with the polynomials of the second kind U *)
Lemma cheb_rec : forall n t, cheb (S (S n)) t = cheb (S n) t * (2 * t) - cheb n t.
Proof. intros. unfold cheb. rewrite rec3_SS. reflexivity. Qed.
Definition chebU (a : nat) (x : R) : R := fst (rec3 1 (2 * x) (fun n b a => b * (2 * x) - a) a).
Lemma chebU_rec : forall n t, chebU (S (S n)) t = chebU (S n) t * (2 * t) - chebU n t.
Proof. intros. unfold chebU. rewrite rec3_SS. reflexivity. Qed.
Theorem chebyshev_ok : fam_ok chebyshev.
Proof.
  split.
  - intros a b H. simpl. unfold odd_gap. destruct (Nat.ltb_spec b a); [lia|auto].
  - assert (TU : forall n x, 2 * cheb (S (S n)) x = chebU (S (S n)) x - chebU n x).
    { intros n x. revert n. apply two_step.
      - unfold cheb, chebU. simpl. ring.
      - unfold cheb, chebU. simpl. ring.
      - intros n A B. rewrite (cheb_rec (S (S n))), (chebU_rec (S (S n))). pose proof (chebU_rec n x) as E.
        replace (2 * (cheb (S (S (S n))) x * (2 * x) - cheb (S (S n)) x)) with (2 * cheb (S (S (S n))) x * (2 * x) - 2 * cheb (S (S n)) x) by ring.
        rewrite A, B. replace ((chebU (S (S (S n))) x - chebU (S n) x) * (2 * x)) with (chebU (S (S (S n))) x * (2 * x) - chebU (S n) x * (2 * x)) by ring. lra. }
    assert (G : forall a x, derivable_pt_lim (cheb a) x (match a with O => 0 | S b => INR a * chebU b x end)).
    { intros a x. revert a. apply two_step.
      - eapply d_ext with (f := fun _ => 1) (l := 0); auto; apply d_const.
      - apply d_ext with (f := fun t => 1 * t + 0) (l := 1); [intro; unfold cheb; simpl; ring|unfold chebU; simpl; ring|apply d_lin].
      - intros n H0 H1. eapply d_ext; [intro t; symmetry; apply cheb_rec| |apply d_minus; [apply d_mult; [exact H1|apply d_scal, d_id]|exact H0]].
        cbv beta. destruct n as [|n]; [unfold cheb, chebU; simpl; ring|]. destruct n as [|n]; [unfold cheb, chebU; simpl; ring|].
        pose proof (TU (S n) x) as T. pose proof (chebU_rec (S n) x) as U2. rewrite !S_INR. rewrite U2. rewrite U2 in T.
        assert (C : cheb (S (S (S n))) x * 2 = chebU (S (S n)) x * (2 * x) - chebU (S n) x - chebU (S n) x) by lra.
        replace (cheb (S (S (S n))) x * (2 * 1)) with (cheb (S (S (S n))) x * 2) by ring. rewrite C. ring. }
    (* n U_{n-1} written in the T basis *)
    assert (UT : forall n x, chebU n x = rsum (S n) (fun b => (if odd_gap (S n) b then (if Nat.eqb b 0 then 1 else 2) else 0) * cheb b x)).
    { intros n x. revert n. apply two_step.
      - unfold chebU, cheb, odd_gap. simpl. ring.
      - unfold chebU, cheb, odd_gap. simpl. ring.
      - intros n A _. assert (T : chebU (S (S n)) x = chebU n x + 2 * cheb (S (S n)) x) by (rewrite TU; ring). rewrite T, A.
        change (rsum (S (S (S n)))) with (fun f => rsum (S n) f + f (S n) + f (S (S n))). cbv beta.
        rewrite odd_gap_a, odd_gap_Sa. cbn [Nat.eqb].
        rewrite (rsum_ext (S n) (fun b => (if odd_gap (S (S (S n))) b then _ else _) * _) (fun b => (if odd_gap (S n) b then if Nat.eqb b 0 then 1 else 2 else 0) * cheb b x)) by (intros; rewrite odd_gap_rec by auto; reflexivity). ring. }
    intros a x. eapply d_ext; [reflexivity| |apply G]. destruct a as [|a]; [reflexivity|]. rewrite UT, <- rsum_scal_l. apply rsum_ext. intros b Hb.
    cbn [dco phi chebyshev]. destruct (odd_gap (S a) b); destruct (Nat.eqb b 0); ring.
Qed.

(* ---------------- products ---------------- *)
Lemma prodn_ext : forall n f g, (forall i, (i < n)%nat -> f i = g i) -> prodn n f = prodn n g.
Proof. induction n; intros f g H; simpl; auto. rewrite (IHn f g), H; auto. Qed.
Lemma prodn_split : forall n k f, (k < n)%nat -> prodn n f = f k * prodn n (fun i => if Nat.eqb i k then 1 else f i).
Proof.
  induction n as [|n IH]; intros k f H; [lia|]. simpl. destruct (Nat.eqb_spec n k) as [->|N].
  - rewrite (prodn_ext k (fun i => if Nat.eqb i k then 1 else f i) f); [ring|]. intros i Hi. destruct (Nat.eqb_spec i k); [lia|auto].
  - rewrite (IH k) by lia. ring.
Qed.
Lemma rsum_trunc : forall a n f, (a <= n)%nat -> (forall i, (a <= i < n)%nat -> f i = 0) -> rsum n f = rsum a f.
Proof.
  intros a n f H Z. replace n with (a + (n - a))%nat by lia. rewrite rsum_app. rewrite (rsum_zero (n - a)); [ring|]. intros i Hi. apply Z. lia.
Qed.

(* ---------------- scaling ---------------- *)
Lemma scale_affine : forall s k x t, scale s k (x + t) = scale s k x + t * dscale s k.
Proof. intros s k x t. destruct s; simpl; unfold Rdiv; ring. Qed.

Lemma removelast_map_seq : forall (A : Type) (f : nat -> A) n, removelast (map f (seq 0 (S n))) = map f (seq 0 n).
Proof. intros. rewrite seq_S, map_app. simpl. apply removelast_last. Qed.

Section TB.
Variable B : tbasis.
Hypothesis FO : fam_ok (tb_fam B).
Let deg := tb_deg B.
Let F := tb_fam B.

Definition d1 (a : nat) (y : R) : R := rsum a (fun b => dco F a b * phi F b y).
Definition d2 (a : nat) (y : R) : R := rsum a (fun b => dco F a b * d1 b y).
Definition sc (x : vec) (k : nat) : R := scale (tb_scale B) k (vget x k).

Lemma vcoord_get : forall x k a, (a <= deg)%nat -> vget (vcoord B x k) a = phi F a (sc x k).
Proof. intros. unfold vcoord. rewrite vget_map_seq; auto. fold deg. lia. Qed.

Lemma unitc_length : forall n a, length (unitc n a) = n.
Proof. intros. unfold unitc. rewrite map_length, seq_length. auto. Qed.
Lemma unitc_get : forall n a i, (i < n)%nat -> vget (unitc n a) i = if Nat.eqb i a then 1 else 0.
Proof. intros. unfold unitc. rewrite vget_map_seq; auto. Qed.
Lemma rsum_unitc : forall n a f, (a < n)%nat -> rsum n (fun i => vget (unitc n a) i * f i) = f a.
Proof.
  intros n a f H. rewrite (rsum_single n a); auto.
  - rewrite unitc_get by auto. rewrite Nat.eqb_refl. ring.
  - intros i Hi N. rewrite unitc_get by auto. destruct (Nat.eqb_spec i a); [lia|ring].
Qed.

Lemma Dmat_eq : forall a, (a <= deg)%nat -> Dmat B a = map (fun b => dco F a b) (seq 0 deg).
Proof.
  intros a H. unfold Dmat. fold deg. destruct (Nat.eqb_spec deg 0) as [E|N]; [rewrite E; reflexivity|].
  unfold polyder. rewrite unitc_length. destruct (Nat.leb_spec (S deg) 1); [lia|].
  replace (S deg - 1)%nat with deg by lia. apply map_ext. intro b. apply (rsum_unitc (S deg) a (fun i => dco (tb_fam B) i b)). lia.
Qed.

Lemma dot_map_seq : forall n f g, dot (map f (seq 0 n)) (map g (seq 0 n)) = rsum n (fun i => f i * g i).
Proof.
  intros. rewrite dot_rsum by (rewrite !map_length; auto). rewrite map_length, seq_length. apply rsum_ext. intros. rewrite !vget_map_seq by auto. auto.
Qed.

Lemma der1_eq : forall x q a, (a <= deg)%nat -> dot (removelast (vcoord B x q)) (Dmat B a) = d1 a (sc x q).
Proof.
  intros x q a H. rewrite Dmat_eq by auto. unfold vcoord. fold deg. rewrite removelast_map_seq, dot_map_seq. unfold d1.
  rewrite (rsum_trunc a deg).
  - apply rsum_ext. intros. unfold F, sc. ring.
  - auto.
  - intros i Hi. destruct FO as [Z _]. unfold F. rewrite Z by lia. ring.
Qed.

Lemma firstn_map_seq : forall (A : Type) (f : nat -> A) n m, (m <= n)%nat -> firstn m (map f (seq 0 n)) = map f (seq 0 m).
Proof.
  intros A f n m H. rewrite firstn_map. f_equal. replace n with (m + (n - m))%nat by lia. rewrite seq_app, firstn_app, seq_length, Nat.sub_diag. simpl.
  rewrite app_nil_r. rewrite firstn_all2; auto. rewrite seq_length. lia.
Qed.

Lemma polyder_unit : forall a, (a <= deg)%nat -> (1 <= deg)%nat -> polyder F (unitc (S deg) a) = map (fun b => dco F a b) (seq 0 deg).
Proof.
  intros a H N. rewrite <- Dmat_eq by auto. unfold Dmat. fold deg. destruct (Nat.eqb_spec deg 0); [lia|reflexivity].
Qed.

Lemma der2_eq : forall x q a, (a <= deg)%nat ->
  dot (firstn (length (polyder2 F (unitc (S deg) a))) (vcoord B x q)) (polyder2 F (unitc (S deg) a)) = d2 a (sc x q).
Proof.
  intros x q a H. destruct FO as [Z _]. fold F in Z. unfold polyder2. rewrite unitc_length. destruct (Nat.leb_spec (S deg) 2) as [L|L].
  - cbn [length]. unfold vcoord. fold deg. rewrite firstn_map_seq by lia. cbn [seq map]. unfold dot. simpl.
    unfold d2. rewrite (rsum_zero a); [ring|]. intros b Hb. unfold d1. rewrite (rsum_zero b); [ring|]. intros c Hc. lia.
  - rewrite polyder_unit by lia. unfold polyder at 1 2. rewrite map_length, seq_length. destruct (Nat.leb_spec deg 1); [lia|].
    rewrite map_length, seq_length. unfold vcoord. fold deg. rewrite firstn_map_seq by lia. rewrite dot_map_seq. fold F. fold (sc x q).
    unfold d2. rewrite (rsum_ext (deg - 1) _ (fun c => rsum deg (fun b => dco F a b * (dco F b c * phi F c (sc x q))))).
    2:{ intros c Hc. rewrite <- rsum_scal_l. apply rsum_ext. intros b Hb. rewrite vget_map_seq by auto. ring. }
    rewrite rsum_swap. rewrite (rsum_trunc a deg); auto.
    + apply rsum_ext. intros b Hb. rewrite rsum_scal_l. f_equal. unfold d1. apply rsum_trunc; [lia|]. intros i Hi. rewrite Z by lia. ring.
    + intros b Hb. rewrite (rsum_zero (deg - 1)); auto. intros c Hc. rewrite (Z a b) by lia. ring.
Qed.

Lemma phi_deriv : forall a y, derivable_pt_lim (phi F a) y (d1 a y).
Proof. intros. apply FO. Qed.
Lemma d1_deriv : forall a y, derivable_pt_lim (d1 a) y (d2 a y).
Proof. intros a y. unfold d1 at 1. apply (d_rsum a (fun b t => dco F a b * phi F b t) (fun b => dco F a b * d1 b y)). intros b Hb. apply d_scal. apply phi_deriv. Qed.

Lemma sc_move : forall x t k q, length x = tb_dim B -> (k < tb_dim B)%nat -> (q < tb_dim B)%nat ->
  sc (vadd x (vscale t (unit_row_ (tb_dim B) k))) q = if Nat.eqb q k then sc x q + t * dscale (tb_scale B) q else sc x q.
Proof.
  intros x t k q L Hk Hq. unfold sc. rewrite vadd_get by (rewrite vscale_length, unit_row_length; auto).
  rewrite vscale_get. unfold unit_row_. rewrite vget_map_seq by auto. destruct (Nat.eqb_spec q k).
  - replace (vget x q + t * 1) with (vget x q + t) by ring. apply scale_affine.
  - f_equal. ring.
Qed.

(** chain rule for one factor *)
Lemma move_deriv : forall g dg c s, (forall y, derivable_pt_lim g y (dg y)) -> derivable_pt_lim (fun t => g (c + t * s)) 0 (dg c * s).
Proof.
  intros g dg c s H. apply d_comp.
  - apply d_ext with (f := fun t => s * t + c) (l := s); [intro; ring|reflexivity|apply d_lin].
  - replace (c + 0 * s) with c by ring. apply H.
Qed.

(** the entries as products of one-dimensional functions *)
Definition psi (al : list nat) (x : vec) : R := prodn (tb_dim B) (fun k => phi F (ith al k) (sc x k)).
Definition dpsi (al : list nat) (k : nat) (x : vec) : R :=
  prodn (tb_dim B) (fun q => if Nat.eqb q k then d1 (ith al q) (sc x q) else phi F (ith al q) (sc x q)) * dscale (tb_scale B) k.
Definition ddpsi (al : list nat) (k l : nat) (x : vec) : R :=
  prodn (tb_dim B) (fun q => if Nat.eqb q k && Nat.eqb k l then d2 (ith al q) (sc x q)
    else if Nat.eqb q k || Nat.eqb q l then d1 (ith al q) (sc x q) else phi F (ith al q) (sc x q)) * (dscale (tb_scale B) k * dscale (tb_scale B) l).

Lemma ith_le : forall al k, (1 <= tb_dim B)%nat -> In al (indices B) -> (ith al k <= deg)%nat.
Proof.
  intros al k Hd H. apply index_set_in in H; auto. destruct H as [_ S]. unfold ith.
  assert (G : forall a k, (nth k a 0 <= nsum a)%nat).
  { induction a as [|x a IH]; intro j; [destruct j; simpl; lia|]. change (nsum (x :: a)) with (x + nsum a)%nat.
    destruct j as [|j]; simpl; [lia|]. specialize (IH j). lia. }
  specialize (G al k). fold deg in S. lia.
Qed.

Lemma psi_deriv : forall al k x, length x = tb_dim B -> (k < tb_dim B)%nat ->
  derivable_pt_lim (fun t => psi al (vadd x (vscale t (unit_row_ (tb_dim B) k)))) 0 (dpsi al k x).
Proof.
  intros al k x L Hk. set (P := prodn (tb_dim B) (fun i => if Nat.eqb i k then 1 else phi F (ith al i) (sc x i))).
  apply d_ext with (f := fun t => P * phi F (ith al k) (sc x k + t * dscale (tb_scale B) k)) (l := P * (d1 (ith al k) (sc x k) * dscale (tb_scale B) k)).
  - intro t. unfold psi. rewrite (prodn_split _ k) by auto. rewrite sc_move by auto. rewrite Nat.eqb_refl. rewrite Rmult_comm. f_equal.
    apply prodn_ext. intros i Hi. rewrite sc_move by auto. destruct (Nat.eqb i k); auto.
  - unfold dpsi. rewrite (prodn_split (tb_dim B) k) by auto. rewrite Nat.eqb_refl. unfold P.
    rewrite (prodn_ext (tb_dim B) (fun i => if Nat.eqb i k then 1 else if Nat.eqb i k then d1 (ith al i) (sc x i) else phi F (ith al i) (sc x i)) (fun i => if Nat.eqb i k then 1 else phi F (ith al i) (sc x i))) by (intros i Hi; destruct (Nat.eqb i k); auto). ring.
  - apply d_scal. apply move_deriv. apply phi_deriv.
Qed.

Lemma dpsi_deriv : forall al k l x, length x = tb_dim B -> (k < tb_dim B)%nat -> (l < tb_dim B)%nat ->
  derivable_pt_lim (fun t => dpsi al k (vadd x (vscale t (unit_row_ (tb_dim B) l)))) 0 (ddpsi al k l x).
Proof.
  intros al k l x L Hk Hl.
  set (P := prodn (tb_dim B) (fun i => if Nat.eqb i l then 1 else if Nat.eqb i k then d1 (ith al i) (sc x i) else phi F (ith al i) (sc x i))).
  set (g := if Nat.eqb l k then d1 (ith al l) else phi F (ith al l)). set (dg := if Nat.eqb l k then d2 (ith al l) else d1 (ith al l)).
  assert (DG : forall y, derivable_pt_lim g y (dg y)).
  { intro y. unfold g, dg. destruct (Nat.eqb l k); [apply d1_deriv|apply phi_deriv]. }
  apply d_ext with (f := fun t => P * dscale (tb_scale B) k * g (sc x l + t * dscale (tb_scale B) l)) (l := P * dscale (tb_scale B) k * (dg (sc x l) * dscale (tb_scale B) l)).
  - intro t. unfold dpsi. rewrite (prodn_split _ l) by auto. rewrite sc_move by auto. rewrite Nat.eqb_refl.
    rewrite (prodn_ext (tb_dim B) _ (fun i => if Nat.eqb i l then 1 else if Nat.eqb i k then d1 (ith al i) (sc x i) else phi F (ith al i) (sc x i))).
    + fold P. unfold g. destruct (Nat.eqb l k); ring.
    + intros i Hi. rewrite sc_move by auto. destruct (Nat.eqb i l); auto.
  - unfold ddpsi. rewrite (prodn_split (tb_dim B) l) by auto. rewrite Nat.eqb_refl.
    rewrite (prodn_ext (tb_dim B) (fun i => if Nat.eqb i l then 1 else _) (fun i => if Nat.eqb i l then 1 else if Nat.eqb i k then d1 (ith al i) (sc x i) else phi F (ith al i) (sc x i))).
    + fold P. unfold dg. destruct (Nat.eqb_spec l k) as [->|N].
      * rewrite Nat.eqb_refl. simpl. ring.
      * simpl. ring.
    + intros i Hi. destruct (Nat.eqb_spec i l); auto. destruct (Nat.eqb_spec i k); auto. subst.
      destruct (Nat.eqb_spec k l); [lia|]. simpl. auto.
  - apply d_scal. apply move_deriv. exact DG.
Qed.

Lemma ddpsi_sym : forall al k l x, ddpsi al k l x = ddpsi al l k x.
Proof.
  intros. unfold ddpsi. f_equal; [|ring]. apply prodn_ext. intros q Hq.
  destruct (Nat.eqb_spec q k), (Nat.eqb_spec k l), (Nat.eqb_spec q l), (Nat.eqb_spec l k); subst; simpl; auto; lia.
Qed.

Lemma Vrow_nth : forall x j, (1 <= tb_dim B)%nat -> (j < length (indices B))%nat -> vget (Vrow B x) j = psi (nth j (indices B) []) x.
Proof.
  intros x j Hd Hj. unfold Vrow, vget. rewrite nth_indep with (d' := prodn (tb_dim B) (fun k => vget (vcoord B x k) (ith [] k))) by (rewrite map_length; auto).
  rewrite (map_nth (fun al => prodn (tb_dim B) (fun k => vget (vcoord B x k) (ith al k)))). unfold psi. apply prodn_ext. intros k Hk.
  apply vcoord_get. apply ith_le; auto. apply nth_In. auto.
Qed.
Lemma DVrow_nth : forall x j k, (1 <= tb_dim B)%nat -> (j < length (indices B))%nat -> (k < tb_dim B)%nat ->
  vget (nth j (DVrow B x) []) k = dpsi (nth j (indices B) []) k x.
Proof.
  intros x j k Hd Hj Hk. unfold DVrow. rewrite nth_indep with (d' := map (DVent B x []) (seq 0 (tb_dim B))) by (rewrite map_length; auto).
  rewrite (map_nth (fun al => map (DVent B x al) (seq 0 (tb_dim B)))). rewrite vget_map_seq by auto. unfold DVent, dpsi. f_equal. apply prodn_ext. intros q Hq.
  assert (Hi : (ith (nth j (indices B) []) q <= deg)%nat) by (apply ith_le; auto; apply nth_In; auto).
  rewrite der1_eq, vcoord_get by auto. reflexivity.
Qed.
Lemma DDVrow_nth : forall x j k l, (1 <= tb_dim B)%nat -> (j < length (indices B))%nat -> (k < tb_dim B)%nat -> (l < tb_dim B)%nat ->
  vget (nth k (nth j (DDVrow B x) []) []) l = ddpsi (nth j (indices B) []) k l x.
Proof.
  intros x j k l Hd Hj Hk Hl. unfold DDVrow.
  rewrite nth_indep with (d' := map (fun k => map (DDVent B x [] k) (seq 0 (tb_dim B))) (seq 0 (tb_dim B))) by (rewrite map_length; auto).
  rewrite (map_nth (fun al => map (fun k => map (DDVent B x al k) (seq 0 (tb_dim B))) (seq 0 (tb_dim B)))).
  rewrite nth_map_seq by auto. rewrite vget_map_seq by auto. set (al := nth j (indices B) []).
  assert (Hi : forall q, (ith al q <= deg)%nat) by (intro q; apply ith_le; auto; apply nth_In; auto).
  assert (U : forall k l, DDVup B x al k l = ddpsi al k l x).
  { intros k' l'. unfold DDVup, ddpsi. f_equal. apply prodn_ext. intros q Hq. fold F. fold deg. cbv zeta. rewrite der2_eq, der1_eq, vcoord_get by auto. reflexivity. }
  unfold DDVent. rewrite !U. destruct (Nat.leb k l); auto. apply ddpsi_sym.
Qed.
End TB.

(** C22 *)
Theorem DV_is_derivative : forall B x j k, fam_ok (tb_fam B) -> length x = tb_dim B -> (j < length (indices B))%nat -> (k < tb_dim B)%nat ->
  derivable_pt_lim (fun t => vget (Vrow B (vadd x (vscale t (unit_row_ (tb_dim B) k)))) j) 0 (vget (nth j (DVrow B x) []) k).
Proof.
  intros B x j k FO L Hj Hk. eapply d_ext; [|symmetry; apply (DVrow_nth B FO); auto; lia|apply (psi_deriv B FO); auto].
  intro t. symmetry. apply Vrow_nth; auto. lia.
Qed.
Theorem DDV_is_derivative : forall B x j k l, fam_ok (tb_fam B) -> length x = tb_dim B -> (j < length (indices B))%nat -> (k < tb_dim B)%nat -> (l < tb_dim B)%nat ->
  derivable_pt_lim (fun t => vget (nth j (DVrow B (vadd x (vscale t (unit_row_ (tb_dim B) l)))) []) k) 0 (vget (nth k (nth j (DDVrow B x) []) []) l).
Proof.
  intros B x j k l FO L Hj Hk Hl. eapply d_ext; [|symmetry; apply (DDVrow_nth B FO); auto; lia|apply (dpsi_deriv B FO); auto].
  intro t. symmetry. apply (DVrow_nth B FO); auto. lia.
Qed.
(** all five families used in the code *)
Theorem families_ok : Forall fam_ok [monomials; legendre; chebyshev; laguerre; hermite].
Proof. repeat apply Forall_cons; auto using monomials_ok, legendre_ok, chebyshev_ok, laguerre_ok, hermite_ok. Qed.
(** the entries of V are the products of the univariate polynomials at the scaled coordinates *)
Theorem V_entries : forall B x j, (1 <= tb_dim B)%nat -> (j < length (indices B))%nat ->
  vget (Vrow B x) j = prodn (tb_dim B) (fun k => phi (tb_fam B) (ith (nth j (indices B) []) k) (scale (tb_scale B) k (vget x k))).
Proof. intros. rewrite Vrow_nth by auto. reflexivity. Qed.

(** gradient and Hessian of polynomial functions, poly.py *)
Theorem poly_grad_correct : forall B c x k, fam_ok (tb_fam B) -> length x = tb_dim B -> length c = length (indices B) -> (k < tb_dim B)%nat ->
  derivable_pt_lim (fun t => poly_eval B c (vadd x (vscale t (unit_row_ (tb_dim B) k)))) 0 (vget (poly_grad B c x) k).
Proof.
  intros B c x k FO L Lc Hk. unfold poly_grad. rewrite vget_map_seq by auto.
  apply d_ext with (f := fun t => rsum (length c) (fun j => vget c j * vget (Vrow B (vadd x (vscale t (unit_row_ (tb_dim B) k)))) j))
    (l := rsum (length c) (fun j => vget c j * vget (nth j (DVrow B x) []) k)).
  - intro t. unfold poly_eval. rewrite dot_comm, dot_rsum by (unfold Vrow; rewrite map_length; auto). reflexivity.
  - rewrite dot_comm, dot_rsum by (unfold DVrow; rewrite !map_length; auto). apply rsum_ext. intros j Hj. f_equal.
    unfold vget at 2. rewrite nth_indep with (l := map _ _) (d' := vget [] k) by (unfold DVrow; rewrite !map_length; lia).
    rewrite (map_nth (fun row => vget row k)). reflexivity.
  - apply (d_rsum (length c) (fun j t => vget c j * vget (Vrow B (vadd x (vscale t (unit_row_ (tb_dim B) k)))) j) (fun j => vget c j * vget (nth j (DVrow B x) []) k)).
    intros j Hj. apply d_scal. apply DV_is_derivative; auto. lia.
Qed.
Theorem poly_hess_correct : forall B c x k l, fam_ok (tb_fam B) -> length x = tb_dim B -> length c = length (indices B) -> (k < tb_dim B)%nat -> (l < tb_dim B)%nat ->
  derivable_pt_lim (fun t => vget (poly_grad B c (vadd x (vscale t (unit_row_ (tb_dim B) l)))) k) 0 (vget (nth k (poly_hess B c x) []) l)
  /\ vget (nth k (poly_hess B c x) []) l = vget (nth l (poly_hess B c x) []) k.
Proof.
  intros B c x k l FO L Lc Hk Hl.
  assert (H : forall k l, (k < tb_dim B)%nat -> (l < tb_dim B)%nat -> vget (nth k (poly_hess B c x) []) l = rsum (length c) (fun j => vget c j * vget (nth k (nth j (DDVrow B x) []) []) l)).
  { intros k' l' Hk' Hl'. unfold poly_hess. rewrite nth_map_seq by auto. rewrite vget_map_seq by auto. rewrite dot_comm, dot_rsum by (unfold DDVrow; rewrite !map_length; auto).
    apply rsum_ext. intros j Hj. f_equal.
    unfold vget at 1. rewrite nth_indep with (l := map _ _) (d' := vget (nth k' [] []) l') by (unfold DDVrow; rewrite !map_length; lia).
    rewrite (map_nth (fun h => vget (nth k' h []) l')). reflexivity. }
  split.
  - apply d_ext with (f := fun t => rsum (length c) (fun j => vget c j * vget (nth j (DVrow B (vadd x (vscale t (unit_row_ (tb_dim B) l)))) []) k))
      (l := rsum (length c) (fun j => vget c j * vget (nth k (nth j (DDVrow B x) []) []) l)).
    + intro t. unfold poly_grad. rewrite vget_map_seq by auto. rewrite dot_comm, dot_rsum by (unfold DVrow; rewrite !map_length; auto).
      apply rsum_ext. intros j Hj. f_equal. unfold vget at 2. rewrite nth_indep with (l := map _ _) (d' := vget [] k) by (unfold DVrow; rewrite !map_length; lia).
      rewrite (map_nth (fun row => vget row k)). reflexivity.
    + rewrite H; auto.
    + apply (d_rsum (length c) (fun j t => vget c j * vget (nth j (DVrow B (vadd x (vscale t (unit_row_ (tb_dim B) l)))) []) k) (fun j => vget c j * vget (nth k (nth j (DDVrow B x) []) []) l)).
      intros j Hj. apply d_scal. apply DDV_is_derivative; auto. lia.
  - rewrite !H by auto. apply rsum_ext. intros j Hj. f_equal. rewrite !(DDVrow_nth B FO) by (auto; lia). apply ddpsi_sym.
Qed.

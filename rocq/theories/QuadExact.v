(** Exactness of the Gauss-Legendre rule of psdr/quadrature.py (C126): with orthonormal eigenvectors
    of the Jacobi matrix the N-point rule integrates every polynomial of degree at most 2N-1 exactly,
    and no polynomial rule could do better: a polynomial of degree 2N is not integrated exactly. *)
Require Import Reals Lra Lia List Bool Arith.
From Verif Require Import RVec Num Sums DomModel DomSpec DomProofs NormProofs DomOpsProofs DomExamples DomMoreModel SweepProofs QuadProofs GrassLib SpecProofs Spectral Decomp.
Import ListNotations.
Local Open Scope R_scope.

Definition gb (i : nat) : R := match i with O => 0 | S _ => gbeta i end.
Lemma gb_pos : forall i, 0 < gb (S i).
Proof. intro i. apply gbeta_sq. Qed.

(* ---------------- moment sequences ---------------- *)
Notation mom := (nat -> R).
Definition shift (u : mom) : mom := fun k => u (S k).

(** p_b(S) for the orthonormal polynomials of the Jacobi matrix: the pair (p_{b}(S) u, p_{b-1}(S) u) *)
Fixpoint opp (b : nat) (u : mom) : mom * mom :=
  match b with
  | O => (u, fun _ => 0)
  | S b' => let '(p, q) := opp b' u in (fun k => (p (S k) - gb b' * q k) / gb (S b'), p)
  end.
Definition op (b : nat) (u : mom) : mom := fst (opp b u).
Lemma op_0 : forall u, op 0 u = u.
Proof. reflexivity. Qed.
Lemma opp_snd : forall b u, snd (opp (S b) u) = op b u.
Proof. intros b u. unfold op. simpl. destruct (opp b u). reflexivity. Qed.
Lemma op_rec : forall b u k, op b u (S k) = gb (S b) * op (S b) u k + gb b * (match b with O => 0 | S b' => op b' u k end).
Proof.
  intros b u k. pose proof (gb_pos b) as G. unfold op at 2. cbn [opp]. destruct (opp b u) as [p q] eqn:E. cbn [fst].
  assert (P : op b u = p) by (unfold op; rewrite E; auto). rewrite P.
  destruct b as [|b].
  - simpl in E. injection E as <- <-. change (gb 0) with 0. field. lra.
  - pose proof (opp_snd b u) as Q. rewrite E in Q. simpl in Q. subst q. field. lra.
Qed.

(** two sequences related pointwise are mapped to related ones *)
Lemma op_lin : forall b u v w c d, (forall k, w k = c * u k + d * v k) -> forall k, op b w k = c * op b u k + d * op b v k.
Proof.
  intros b u v w c d H. cut (forall k, op b w k = c * op b u k + d * op b v k /\ op (S b) w k = c * op (S b) u k + d * op (S b) v k).
  { intros X k. apply X. }
  induction b as [|b IH]; intro k.
  - split; [apply H|]. pose proof (op_rec 0 w k) as A. pose proof (op_rec 0 u k) as B. pose proof (op_rec 0 v k) as C.
    rewrite !op_0 in *. pose proof (H (S k)). pose proof (gb_pos 0). apply Rmult_eq_reg_l with (gb 1); nra.
  - split; [apply IH|]. pose proof (op_rec (S b) w k) as A. pose proof (op_rec (S b) u k) as B. pose proof (op_rec (S b) v k) as C.
    cbv iota beta in *. destruct (IH k) as [I1 _]. destruct (IH (S k)) as [_ I2]. pose proof (gb_pos (S b)).
    apply Rmult_eq_reg_l with (gb (S (S b))); [|lra]. rewrite I1, I2 in *. nra.
Qed.
Lemma op_ext : forall b u v, (forall k, u k = v k) -> forall k, op b u k = op b v k.
Proof. intros b u v H k. rewrite (op_lin b v v u 1 0); [ring|]. intro j. rewrite H. ring. Qed.
Lemma op_shift : forall b u k, op b (shift u) k = op b u (S k).
Proof.
  intros b u. cut (forall k, op b (shift u) k = op b u (S k) /\ op (S b) (shift u) k = op (S b) u (S k)).
  { intros X k. apply X. }
  induction b as [|b IH]; intro k.
  - split; [reflexivity|]. pose proof (op_rec 0 (shift u) k) as A. pose proof (op_rec 0 u (S k)) as B.
    rewrite !op_0 in *. unfold shift in A at 1. pose proof (gb_pos 0). apply Rmult_eq_reg_l with (gb 1); nra.
  - split; [apply IH|]. pose proof (op_rec (S b) (shift u) k) as A. pose proof (op_rec (S b) u (S k)) as B.
    cbv iota beta in *. destruct (IH k) as [I1 _]. destruct (IH (S k)) as [_ I2]. pose proof (gb_pos (S b)).
    apply Rmult_eq_reg_l with (gb (S (S b))); [|lra]. rewrite I1, I2 in *. nra.
Qed.

(** G a b = L(p_a p_b) *)
Definition G (m : mom) (a b : nat) : R := op b (op a m) 0.
Definition G' (m : mom) (a b : nat) : R := match a with O => 0 | S a' => G m a' b end.
(** L(x p_a p_b) in two ways *)
Lemma G_swap : forall m a b,
  gb (S a) * G m (S a) b + gb a * (match a with O => 0 | S a' => G m a' b end) =
  gb (S b) * G m a (S b) + gb b * (match b with O => 0 | S b' => G m a b' end).
Proof.
  intros m a b. unfold G. rewrite <- (op_rec b (op a m) 0). rewrite <- op_shift.
  destruct a as [|a].
  - rewrite (op_lin b (op 1 m) (fun _ => 0) (shift (op 0 m)) (gb 1) 0).
    + change (gb 0) with 0. ring.
    + intro k. unfold shift. rewrite (op_rec 0 m k). change (gb 0) with 0. ring.
  - rewrite (op_lin b (op (S (S a)) m) (op a m) (shift (op (S a) m)) (gb (S (S a))) (gb (S a))); [ring|].
    intro k. unfold shift. apply (op_rec (S a) m k).
Qed.

(** orthonormality from L(p_a) = [a = 0] *)
Lemma G_orth : forall m, (forall a, op a m 0 = if Nat.eqb a 0 then 1 else 0) ->
  forall b a, G m a b = if Nat.eqb a b then 1 else 0.
Proof.
  intros m H b. cut (forall a, G m a b = (if Nat.eqb a b then 1 else 0) /\ G m a (S b) = (if Nat.eqb a (S b) then 1 else 0)).
  { intros X a. apply X. }
  induction b as [|b IH]; intro a.
  - assert (Z : forall a, G m a 0 = if Nat.eqb a 0 then 1 else 0) by (intro; unfold G; rewrite op_0; apply H).
    split; [apply Z|]. pose proof (G_swap m a 0) as E. cbv iota in E. pose proof (gb_pos 0) as P. rewrite !Z in E.
    apply Rmult_eq_reg_l with (gb 1); [|lra].
    destruct a as [|[|a]].
    + cbn [Nat.eqb] in *. lra.
    + rewrite Z in E. cbn [Nat.eqb] in *. lra.
    + rewrite Z in E. cbn [Nat.eqb] in *. lra.
  - split; [apply IH|]. pose proof (G_swap m a (S b)) as E. cbv iota beta in E. pose proof (gb_pos (S b)) as P.
    apply Rmult_eq_reg_l with (gb (S (S b))); [|lra].
    rewrite (proj2 (IH (S a))), (proj1 (IH a)) in E.
    assert (E' : gb (S (S b)) * G m a (S (S b)) = gb (S a) * (if Nat.eqb (S a) (S b) then 1 else 0) +
      gb a * (match a with O => 0 | S a' => if Nat.eqb a' (S b) then 1 else 0 end) - gb (S b) * (if Nat.eqb a b then 1 else 0)).
    { rewrite <- (match a as a0 return (match a0 with O => 0 | S a' => G m a' (S b) end) = (match a0 with O => 0 | S a' => if Nat.eqb a' (S b) then 1 else 0 end)
        with O => eq_refl | S a' => proj2 (IH a') end). lra. }
    rewrite E'. clear E E'. destruct a as [|a].
    + destruct b as [|b]; cbn [Nat.eqb]; ring.
    + change (Nat.eqb (S (S a)) (S b)) with (Nat.eqb (S a) b). change (Nat.eqb (S a) (S (S b))) with (Nat.eqb a (S b)).
      destruct (Nat.eqb_spec (S a) b) as [E1|E1], (Nat.eqb_spec a (S b)) as [E2|E2]; try lia; subst; ring.
Qed.

(** x^i in terms of p_0 .. p_i, uniformly in the functional *)
Lemma mono_expand : forall i, exists al : nat -> R, (forall a, (i < a)%nat -> al a = 0) /\ al i <> 0 /\
  forall u k, u (i + k)%nat = rsum (S i) (fun a => al a * op a u k).
Proof.
  induction i as [|i [al [Z [NZ H]]]].
  - exists (fun a => if Nat.eqb a 0 then 1 else 0). split; [intros a Ha; destruct a; [lia|auto]|]. split; [simpl; lra|].
    intros u k. simpl. rewrite op_0. ring.
  - exists (fun a => al (S a) * gb (S a) + match a with O => 0 | S a' => al a' * gb (S a') end).
    split; [|split].
    + intros a Ha. destruct a as [|a]; [lia|]. rewrite (Z (S (S a))), (Z a) by lia. ring.
    + rewrite (Z (S (S i))) by lia. pose proof (gb_pos i). intro E. apply NZ. nra.
    + intros u k. replace (S i + k)%nat with (i + S k)%nat by lia. rewrite H.
      rewrite (rsum_ext _ _ (fun a => al a * gb (S a) * op (S a) u k + al a * gb a * (match a with O => 0 | S a' => op a' u k end))).
      2:{ intros a _. rewrite (op_rec a u k). ring. }
      rewrite rsum_plus.
      rewrite (rsum_ext (S (S i)) (fun a => (al (S a) * gb (S a) + match a with O => 0 | S a' => al a' * gb (S a') end) * op a u k)
        (fun a => al (S a) * gb (S a) * op a u k + (match a with O => 0 | S a' => al a' * gb (S a') end) * op a u k)).
      2:{ intros a _. ring. }
      rewrite rsum_plus.
      rewrite (rsum_S_first (S i) (fun a => (match a with O => 0 | S a' => al a' * gb (S a') end) * op a u k)).
      rewrite (rsum_S_first i (fun a => al a * gb a * _)).
      cbn [rsum]. rewrite (Z (S i)) by lia. rewrite (Z (S (S i))) by lia. change (gb 0) with 0.
      ring.
Qed.

Lemma mom_G : forall i j, exists al be : nat -> R, (forall a, (i < a)%nat -> al a = 0) /\ al i <> 0 /\ (forall b, (j < b)%nat -> be b = 0) /\ be j <> 0 /\
  forall m, m (i + j)%nat = rsum (S i) (fun a => rsum (S j) (fun b => al a * be b * G m a b)).
Proof.
  intros i j. destruct (mono_expand i) as (al & A1 & A2 & A3). destruct (mono_expand j) as (be & B1 & B2 & B3).
  exists al, be. repeat split; auto. intro m. rewrite A3. apply rsum_ext. intros a _.
  replace j with (j + 0)%nat at 1 by lia. rewrite B3. rewrite <- rsum_scal_l. apply rsum_ext. intros b _. unfold G. ring.
Qed.

(** two functionals for which p_0 .. p_n behave alike have the same moments up to 2n-1 *)
Theorem moments_agree : forall n m m', (forall a b, (a <= n)%nat -> (b < n)%nat -> G m a b = G m' a b) ->
  forall k, (k < 2 * n)%nat -> m k = m' k.
Proof.
  intros n m m' H k Hk. assert (E : exists i j, k = (i + j)%nat /\ (i <= n)%nat /\ (j < n)%nat).
  { destruct (le_lt_dec k n) as [C|C].
    - destruct (Nat.eq_dec n 0) as [->|N0]; [lia|]. exists k, 0%nat. lia.
    - exists n, (k - n)%nat. lia. }
  destruct E as (i & j & -> & Hi & Hj). destruct (mom_G i j) as (al & be & _ & _ & _ & _ & X). rewrite (X m), (X m').
  apply rsum_ext. intros a Ha. apply rsum_ext. intros b Hb. rewrite H by lia. auto.
Qed.

(* ---------------- integrals over [-1,1] ---------------- *)
(** v is the integral of f over [-1,1], by an antiderivative *)
Definition integ (f : R -> R) (v : R) : Prop := exists F : R -> R, (forall x, derivable_pt_lim F x (f x)) /\ v = F 1 - F (-1).

Lemma antider_unique : forall (F H f : R -> R) a b, (forall x, derivable_pt_lim F x (f x)) -> (forall x, derivable_pt_lim H x (f x)) -> F b - F a = H b - H a.
Proof.
  intros F H f a b DF DH.
  assert (D : forall x, derivable_pt_lim (F - H)%F x ((fun _ => 0) x)).
  { intro x. replace 0 with (f x - f x) by ring. apply derivable_pt_lim_minus; auto. }
  assert (K : forall s t, s < t -> F t - F s = H t - H s).
  { intros s t L. destruct (MVT_cor2 (F - H)%F (fun _ => 0) s t L) as (c & E & _); auto. unfold minus_fct in E. lra. }
  destruct (Rtotal_order a b) as [L|[<-|L]]; [apply K; auto|ring|]. pose proof (K b a L). lra.
Qed.
Lemma integ_unique : forall f u v, integ f u -> integ f v -> u = v.
Proof. intros f u v (F & DF & ->) (H & DH & ->). apply (antider_unique F H f); auto. Qed.
Lemma integ_lin : forall f g h u v c d, integ f u -> integ g v -> (forall x, h x = c * f x + d * g x) -> integ h (c * u + d * v).
Proof.
  intros f g h u v c d (F & DF & ->) (H & DH & ->) E. exists (mult_real_fct c F + mult_real_fct d H)%F. split.
  - intro x. rewrite E. apply derivable_pt_lim_plus; apply derivable_pt_lim_scal; auto.
  - unfold plus_fct, mult_real_fct. ring.
Qed.
Lemma integ_ext : forall f g u, integ f u -> (forall x, g x = f x) -> integ g u.
Proof. intros f g u (F & DF & ->) E. exists F. split; auto. intro x. rewrite E. auto. Qed.
Lemma integ_zero : integ (fun _ => 0) 0.
Proof. exists (fct_cte 0). split; [intro x; apply derivable_pt_lim_const|unfold fct_cte; ring]. Qed.

(** half the moments of the uniform weight on [-1,1] *)
Definition mI (k : nat) : R := (1 - (-1) ^ (S k)) / (2 * INR (S k)).
Lemma integ_mono : forall k, integ (fun x => x ^ k) (2 * mI k).
Proof.
  intro k. assert (N : INR (S k) <> 0) by (apply not_0_INR; lia).
  exists (mult_real_fct (/ INR (S k)) (fun x => x ^ (S k))). split.
  - intro x. replace (x ^ k) with (/ INR (S k) * (INR (S k) * x ^ pred (S k))) by (cbn [pred]; field; auto).
    apply derivable_pt_lim_scal. apply derivable_pt_lim_pow.
  - unfold mult_real_fct, mI. rewrite pow1. field. auto.
Qed.

(* ---------------- the orthonormal polynomials ---------------- *)
Definition pn (a : nat) (x : R) : R := op a (fun k => x ^ k) 0.
Lemma op_pow : forall a x k, op a (fun k => x ^ k) k = x ^ k * pn a x.
Proof.
  intros a x k. induction k as [|k IH]; [simpl; unfold pn; ring|].
  rewrite <- op_shift. rewrite (op_lin a (fun k => x ^ k) (fun k => x ^ k) _ x 0).
  - rewrite IH. simpl. ring.
  - intro j. unfold shift. simpl. ring.
Qed.
Lemma pn_0 : forall x, pn 0 x = 1.
Proof. reflexivity. Qed.
Lemma pn_rec : forall a x, x * pn a x = gb (S a) * pn (S a) x + gb a * (match a with O => 0 | S a' => pn a' x end).
Proof.
  intros a x. pose proof (op_rec a (fun k => x ^ k) 0) as E. rewrite (op_pow a x 1) in E. simpl (x ^ 1) in E.
  rewrite Rmult_1_r in E. rewrite E. unfold pn. destruct a; reflexivity.
Qed.
Lemma op_sum : forall n (c : nat -> R) (u : nat -> mom) a k, op a (fun k => rsum n (fun i => c i * u i k)) k = rsum n (fun i => c i * op a (u i) k).
Proof.
  induction n as [|n IH]; intros c u a k.
  - cbn [rsum]. rewrite (op_lin a (fun _ => 0) (fun _ => 0) (fun _ => 0) 0 0); [ring|intro; ring].
  - cbn [rsum]. rewrite (op_lin a (fun k => rsum n (fun i => c i * u i k)) (u n) _ 1 (c n)); [rewrite IH; ring|intro; ring].
Qed.
Lemma op_mI : forall a k, integ (fun x => x ^ k * pn a x) (2 * op a mI k).
Proof.
  intro a. cut (forall k, integ (fun x => x ^ k * pn a x) (2 * op a mI k) /\ integ (fun x => x ^ k * pn (S a) x) (2 * op (S a) mI k)).
  { intros X k. apply X. }
  assert (step : forall a k, integ (fun x => x ^ (S k) * pn a x) (2 * op a mI (S k)) ->
            integ (fun x => x ^ k * (match a with O => 0 | S a' => pn a' x end)) (2 * (match a with O => 0 | S a' => op a' mI k end)) ->
            integ (fun x => x ^ k * pn (S a) x) (2 * op (S a) mI k)).
  { intros b k I1 I2. pose proof (gb_pos b) as P. pose proof (op_rec b mI k) as E.
    replace (2 * op (S b) mI k) with (/ gb (S b) * (2 * op b mI (S k)) + (- (gb b / gb (S b))) * (2 * (match b with O => 0 | S a' => op a' mI k end))).
    - apply (integ_lin _ _ _ _ _ _ _ I1 I2). intro x. pose proof (pn_rec b x) as Q. simpl (x ^ (S k)).
      replace (x * x ^ k * pn b x) with (x ^ k * (x * pn b x)) by ring. rewrite Q. field. lra.
    - rewrite E. field. lra. }
  induction a as [|a IH]; intro k.
  - assert (Z : forall k, integ (fun x => x ^ k * pn 0 x) (2 * op 0 mI k)).
    { intro j. rewrite op_0. apply (integ_ext _ _ _ (integ_mono j)). intro x. rewrite pn_0. ring. }
    split; [apply Z|]. apply step; [apply Z|]. rewrite Rmult_0_r. apply (integ_ext _ _ _ integ_zero). intro. ring.
  - split; [apply IH|]. apply step; apply IH.
Qed.

(* ---------------- Legendre polynomials ---------------- *)
(** (P_a, P_{a-1}) and their derivatives at x *)
Fixpoint legp (a : nat) (x : R) : (R * R) * (R * R) :=
  match a with
  | O => ((1, 0), (0, 0))
  | S a' => let '((p, q), (dp, dq)) := legp a' x in
            ((((2 * INR a' + 1) * x * p - INR a' * q) / (INR a' + 1), p),
             (((2 * INR a' + 1) * (p + x * dp) - INR a' * dq) / (INR a' + 1), dp))
  end.
Definition leg (a : nat) (x : R) : R := fst (fst (legp a x)).
Definition dleg (a : nat) (x : R) : R := fst (snd (legp a x)).
Definition legq (a : nat) (x : R) : R := snd (fst (legp a x)).
Definition dlegq (a : nat) (x : R) : R := snd (snd (legp a x)).
Lemma leg_S : forall a x, leg (S a) x = ((2 * INR a + 1) * x * leg a x - INR a * legq a x) / (INR a + 1) /\ legq (S a) x = leg a x /\
  dleg (S a) x = ((2 * INR a + 1) * (leg a x + x * dleg a x) - INR a * dlegq a x) / (INR a + 1) /\ dlegq (S a) x = dleg a x.
Proof. intros a x. unfold leg, legq, dleg, dlegq. cbn [legp]. destruct (legp a x) as [[p q] [dp dq]]. simpl. auto. Qed.
Lemma leg_der : forall a x, derivable_pt_lim (leg a) x (dleg a x) /\ derivable_pt_lim (legq a) x (dlegq a x).
Proof.
  induction a as [|a IH]; intro x.
  - split; apply derivable_pt_lim_const.
  - destruct (leg_S a x) as (_ & _ & E3 & E4). rewrite E3, E4. destruct (IH x) as [D1 D2]. pose proof (pos_INR a) as P. split.
    + apply derivable_pt_lim_ext with (f := (mult_real_fct (/ (INR a + 1)) (mult_real_fct (2 * INR a + 1) (id * leg a) - mult_real_fct (INR a) (legq a)))%F).
      * intro y. destruct (leg_S a y) as (E & _). rewrite E. unfold mult_real_fct, minus_fct, mult_fct, id. field. lra.
      * replace (((2 * INR a + 1) * (leg a x + x * dleg a x) - INR a * dlegq a x) / (INR a + 1))
          with (/ (INR a + 1) * ((2 * INR a + 1) * (1 * leg a x + id x * dleg a x) - INR a * dlegq a x)) by (unfold id; field; lra).
        apply derivable_pt_lim_scal, derivable_pt_lim_minus; apply derivable_pt_lim_scal; auto.
        apply derivable_pt_lim_mult; auto. apply derivable_pt_lim_id.
    + apply derivable_pt_lim_ext with (f := leg a); auto. intro y. destruct (leg_S a y) as (_ & E & _). auto.
Qed.
Lemma leg_id : forall a x, x * dleg a x - dlegq a x = INR a * leg a x /\ (x * x - 1) * dleg a x = INR a * (x * leg a x - legq a x).
Proof.
  induction a as [|a IH]; intro x.
  - unfold leg, legq, dleg, dlegq. simpl. split; ring.
  - destruct (leg_S a x) as (E1 & E2 & E3 & E4). destruct (IH x) as [I1 I2]. pose proof (pos_INR a) as P. rewrite S_INR.
    set (p := leg a x) in *. set (q := legq a x) in *. set (dp := dleg a x) in *. set (dq := dlegq a x) in *. set (k := INR a) in *.
    assert (D : dleg (S a) x = x * dp + (k + 1) * p).
    { rewrite E3. replace dq with (x * dp - k * p) by lra. field. lra. }
    assert (A : (k + 1) * leg (S a) x = (2 * k + 1) * x * p - k * q) by (rewrite E1; field; lra).
    rewrite D, E2, E4. split.
    + rewrite A. replace (x * (x * dp + (k + 1) * p) - dp) with ((x * x - 1) * dp + (k + 1) * x * p) by ring. rewrite I2. ring.
    + replace ((x * x - 1) * (x * dp + (k + 1) * p)) with (x * ((x * x - 1) * dp) + (k + 1) * (x * x - 1) * p) by ring. rewrite I2.
      replace ((k + 1) * (x * leg (S a) x - p)) with (x * ((k + 1) * leg (S a) x) - (k + 1) * p) by ring. rewrite A. ring.
Qed.
Lemma leg_int : forall a, integ (leg (S a)) 0.
Proof.
  intro a. pose proof (pos_INR (S a)) as P. exists (mult_real_fct (/ (2 * INR (S a) + 1)) (leg (S (S a)) - leg a)%F). split.
  - intro x. destruct (leg_id (S a) x) as [I1 _]. destruct (leg_S (S a) x) as (_ & _ & E3 & _). destruct (leg_S a x) as (_ & _ & _ & E4).
    replace (leg (S a) x) with (/ (2 * INR (S a) + 1) * (dleg (S (S a)) x - dleg a x)).
    + apply derivable_pt_lim_scal, derivable_pt_lim_minus; apply leg_der.
    + rewrite E3. rewrite E4 in *. replace (dleg a x) with (x * dleg (S a) x - INR (S a) * leg (S a) x) by lra. field. lra.
  - unfold mult_real_fct, minus_fct.
    assert (K : forall s, s * s = 1 -> leg (S (S a)) s = leg a s).
    { intros s Hs. destruct (leg_id (S a) s) as [_ J1]. destruct (leg_id (S (S a)) s) as [_ J2].
      destruct (leg_S a s) as (_ & Q1 & _). destruct (leg_S (S a) s) as (_ & Q2 & _). rewrite Q1 in J1. rewrite Q2 in J2. rewrite Hs in J1, J2.
      pose proof (pos_INR a) as P0. rewrite !S_INR in J1, J2.
      assert (B1 : s * leg (S a) s - leg a s = 0) by (apply Rmult_eq_reg_l with (INR a + 1); lra).
      assert (B2 : s * leg (S (S a)) s - leg (S a) s = 0) by (apply Rmult_eq_reg_l with (INR (S a) + 1); lra).
      replace (leg a s) with (s * leg (S a) s) by lra. replace (leg (S a) s) with (s * leg (S (S a)) s) by lra.
      rewrite <- Rmult_assoc, Hs. ring. }
    rewrite (K 1) by ring. rewrite (K (-1)) by ring. ring.
Qed.

Fixpoint kap (a : nat) : R := match a with O => 1 | S a' => kap a' * (INR a' + 1) / ((2 * INR a' + 1) * gb (S a')) end.
Lemma kap_pos : forall a, 0 < kap a.
Proof.
  induction a as [|a IH]; cbn [kap]; [lra|]. pose proof (pos_INR a). pose proof (gb_pos a).
  apply Rdiv_lt_0_compat; apply Rmult_lt_0_compat; lra.
Qed.
Lemma pn_leg : forall a x, pn a x = kap a * leg a x.
Proof.
  intros a x. cut (pn a x = kap a * leg a x /\ pn (S a) x = kap (S a) * leg (S a) x); [tauto|].
  induction a as [|a [I1 I2]].
  - split; [rewrite pn_0; unfold leg; simpl; ring|]. pose proof (pn_rec 0 x) as E. rewrite pn_0 in E. cbv iota in E. pose proof (gb_pos 0) as P.
    apply Rmult_eq_reg_l with (gb 1); [|lra]. destruct (leg_S 0 x) as (E1 & _). rewrite E1. cbn [kap]. change (INR 0) with 0. change (leg 0 x) with 1.
    field_simplify; [|lra]. lra.
  - split; auto. pose proof (pn_rec (S a) x) as E. cbv iota in E. rewrite I1, I2 in E.
    destruct (leg_S (S a) x) as (E1 & _). destruct (leg_S a x) as (_ & E2 & _). rewrite E2 in E1.
    pose proof (gb_pos (S a)) as P1. pose proof (gb_pos a) as P0. destruct (gbeta_sq a) as [Q _]. change (gbeta (S a)) with (gb (S a)) in Q.
    apply Rmult_eq_reg_l with (gb (S (S a))); [|lra].
    replace (gb (S (S a)) * pn (S (S a)) x) with (x * (kap (S a) * leg (S a) x) - gb (S a) * (kap a * leg a x)) by lra.
    assert (KK : gb (S a) * kap a = kap (S a) * (INR a + 1) / (2 * INR a + 3)).
    { cbn [kap]. pose proof (pos_INR a). replace (kap a * (INR a + 1) / ((2 * INR a + 1) * gb (S a)) * (INR a + 1) / (2 * INR a + 3))
        with (kap a * ((INR a + 1) * (INR a + 1) / ((2 * INR a + 1) * (2 * INR a + 3))) / gb (S a)) by (field; lra).
      rewrite <- Q. field. lra. }
    replace (gb (S a) * (kap a * leg a x)) with (gb (S a) * kap a * leg a x) by ring. rewrite KK, E1.
    change (kap (S (S a))) with (kap (S a) * (INR (S a) + 1) / ((2 * INR (S a) + 1) * gb (S (S a)))). rewrite S_INR. pose proof (pos_INR a). field. lra.
Qed.

Lemma mI_orth : forall a b, G mI a b = if Nat.eqb a b then 1 else 0.
Proof.
  intros a b. apply G_orth. clear. intros [|a].
  - rewrite op_0. unfold mI. simpl. field.
  - cbn [Nat.eqb]. pose proof (op_mI (S a) 0) as E.
    assert (Z : integ (fun x => x ^ 0 * pn (S a) x) (kap (S a) * 0 + 0 * 0)).
    { apply (integ_lin _ _ _ _ _ _ _ (leg_int a) integ_zero). intro x. rewrite pn_leg. simpl (x ^ 0). ring. }
    pose proof (integ_unique _ _ _ E Z). lra.
Qed.

(* ---------------- the rule ---------------- *)
(** the full contract of scipy.linalg.eigh on a symmetric n x n matrix (quadrature.py 40): eigenvalues
    [ew] and an orthonormal basis [ev] of eigenvectors *)
Definition eigh_full (n : nat) (T : mat) (ew : vec) (ev : mat) : Prop :=
  length ew = n /\ length ev = n /\ Forall (fun c => length c = n) ev /\
  (forall j, (j < n)%nat -> mv T (nth j ev []) = vscale (vget ew j) (nth j ev [])) /\
  (forall i j, (i < n)%nat -> (j < n)%nat -> dot (nth i ev []) (nth j ev []) = if Nat.eqb i j then 1 else 0).

Lemma eigh_full_onb : forall n T ew ev, eigh_full n T ew ev -> onb n ev.
Proof.
  intros n T ew ev (L1 & L2 & F & _ & O). split; auto. split; auto. intros i j Hi Hj. apply O; lia.
Qed.
Lemma eigh_full_contract : forall n T ew ev, (1 <= n)%nat -> eigh_full n T ew ev -> eigh_contract n T ew ev.
Proof.
  intros n T ew ev Hn H. pose proof (eigh_full_onb _ _ _ _ H) as OB. destruct H as (L1 & L2 & F & E & O). split; auto. split; auto. split; auto. split.
  - intros j Hj. split; [rewrite O, Nat.eqb_refl; auto|auto].
  - pose proof (onb_cols n ev 0 0 OB ltac:(lia) ltac:(lia)) as Q. rewrite Nat.eqb_refl in Q. rewrite <- Q. unfold col. clear.
    induction ev as [|u us IH]; [unfold vsum; rewrite dot_nil_l; reflexivity|]. cbn [map]. rewrite dot_cons, <- IH, vsum_cons. reflexivity.
Qed.
Theorem eigh_full_solvable : forall n, exists ew ev, eigh_full n (jacobi n) ew ev.
Proof.
  intro n. destruct (eig_all n (jacobi n) n (jacobi_sq n) (jacobi_sym n) (le_n n)) as (w & us & L & Lw & F & OR & EV & _).
  exists w, us. split; [lia|]. split; auto. split; auto. split; [intros j Hj; apply EV; lia|]. intros i j Hi Hj. apply OR; lia.
Qed.

(** rows of the Jacobi matrix *)
Lemma jacobi_row : forall n v l i, length v = n -> mv (jacobi n) v = vscale l v -> (i < n)%nat ->
  l * vget v i = gb (S i) * vget v (S i) + gb i * (match i with O => 0 | S i' => vget v i' end).
Proof.
  intros n v l i L E Hi. assert (R1 : vget (vscale l v) i = l * vget v i) by (apply vscale_get).
  rewrite <- R1, <- E. rewrite jacobi_mv by auto. rewrite vget_map_seq by auto.
  rewrite (rsum_ext n _ (fun j => (if Nat.eqb j (S i) then gb (S i) * vget v (S i) else 0) + (if Nat.eqb (S j) i then gb i * vget v j else 0))).
  2:{ intros j Hj. unfold tri. destruct (Nat.eqb_spec j (S i)) as [->|N1].
      - destruct (Nat.eqb_spec (S (S i)) i); [lia|]. cbn [gb]. ring.
      - destruct (Nat.eqb_spec i (S j)) as [->|N2]; [rewrite Nat.eqb_refl; cbn [gb]; ring|].
        destruct (Nat.eqb_spec (S j) i); [lia|]. ring. }
  rewrite rsum_plus. f_equal.
  - destruct (le_lt_dec n (S i)) as [C|C].
    + rewrite (vget_over v (S i)) by lia. rewrite rsum_zero; [ring|]. intros j Hj. destruct (Nat.eqb_spec j (S i)); [lia|auto].
    + rewrite (rsum_single n (S i)); auto; [rewrite Nat.eqb_refl; auto|]. intros j Hj N. destruct (Nat.eqb_spec j (S i)); [lia|auto].
  - destruct i as [|i]; [rewrite rsum_zero; [ring|auto]|].
    rewrite (rsum_single n i); [rewrite Nat.eqb_refl; auto|lia|]. intros j Hj N. destruct (Nat.eqb_spec (S j) (S i)); [lia|auto].
Qed.
(** entries of an eigenvector, and the zero beyond the end *)
Lemma eigvec_entries : forall n v l i, length v = n -> mv (jacobi n) v = vscale l v -> (i <= n)%nat -> vget v i = vget v 0 * pn i l.
Proof.
  intros n v l i L E. cut (forall i, ((i <= n)%nat -> vget v i = vget v 0 * pn i l) /\ ((S i <= n)%nat -> vget v (S i) = vget v 0 * pn (S i) l)).
  { intros X H. apply X; auto. }
  clear i. induction i as [|i [I1 I2]].
  - split; intro H; [rewrite pn_0; ring|]. pose proof (jacobi_row n v l 0 L E ltac:(lia)) as J. pose proof (pn_rec 0 l) as Q. cbv iota in J, Q.
    rewrite pn_0 in Q. pose proof (gb_pos 0). apply Rmult_eq_reg_l with (gb 1); [|lra].
    replace (gb 1 * vget v 1) with (l * vget v 0) by lra. replace (gb 1 * (vget v 0 * pn 1 l)) with (vget v 0 * (gb 1 * pn 1 l)) by ring.
    replace (gb 1 * pn 1 l) with l by lra. ring.
  - split; auto. intro H. pose proof (jacobi_row n v l (S i) L E ltac:(lia)) as J. pose proof (pn_rec (S i) l) as Q. cbv iota in J, Q.
    pose proof (gb_pos (S i)). apply Rmult_eq_reg_l with (gb (S (S i))); [|lra].
    replace (gb (S (S i)) * vget v (S (S i))) with (l * vget v (S i) - gb (S i) * vget v i) by lra.
    rewrite I1, I2 by lia.
    replace (gb (S (S i)) * (vget v 0 * pn (S (S i)) l)) with (vget v 0 * (gb (S (S i)) * pn (S (S i)) l)) by ring.
    replace (gb (S (S i)) * pn (S (S i)) l) with (l * pn (S i) l - gb (S i) * pn i l) by lra. ring.
Qed.

Definition c2 (ev : mat) (j : nat) : R := vget (nth j ev []) 0 * vget (nth j ev []) 0.
(** half the moments of the rule on [-1,1] *)
Definition mQ (n : nat) (ew : vec) (ev : mat) (k : nat) : R := rsum n (fun j => c2 ev j * vget ew j ^ k).

Lemma G_mQ : forall n ew ev a b, G (mQ n ew ev) a b = rsum n (fun j => c2 ev j * (pn a (vget ew j) * pn b (vget ew j))).
Proof.
  intros n ew ev a b. unfold G.
  rewrite (op_ext b _ (fun k => rsum n (fun j => c2 ev j * pn a (vget ew j) * vget ew j ^ k))).
  2:{ intro k. unfold mQ. rewrite (op_sum n (c2 ev) (fun j k => vget ew j ^ k)). apply rsum_ext. intros j _. rewrite op_pow. ring. }
  rewrite (op_sum n (fun j => c2 ev j * pn a (vget ew j)) (fun j k => vget ew j ^ k)). apply rsum_ext. intros j _. rewrite op_pow. simpl. ring.
Qed.
Lemma mQ_orth : forall n ew ev a b, eigh_full n (jacobi n) ew ev -> (a <= n)%nat -> (b <= n)%nat ->
  G (mQ n ew ev) a b = if Nat.eqb a b && Nat.ltb a n then 1 else 0.
Proof.
  intros n ew ev a b H Ha Hb. pose proof (eigh_full_onb _ _ _ _ H) as OB. destruct H as (L1 & L2 & F & E & O). rewrite G_mQ.
  rewrite (rsum_ext n _ (fun j => vget (nth j ev []) a * vget (nth j ev []) b)).
  2:{ intros j Hj. assert (LJ : length (nth j ev []) = n) by (rewrite Forall_forall in F; apply F, nth_In; lia).
      rewrite (eigvec_entries n (nth j ev []) (vget ew j) a) by auto. rewrite (eigvec_entries n (nth j ev []) (vget ew j) b) by auto. unfold c2. ring. }
  assert (Z : forall c d, (c = n)%nat -> rsum n (fun j => vget (nth j ev []) c * vget (nth j ev []) d) = 0).
  { intros c d ->. apply rsum_zero. intros j Hj. assert (LJ : length (nth j ev []) = n) by (rewrite Forall_forall in F; apply F, nth_In; lia).
    rewrite vget_over by lia. ring. }
  destruct (Nat.eq_dec a n) as [EA|NA].
  - rewrite Z by auto. destruct (Nat.ltb_spec a n); [lia|]. rewrite andb_false_r. auto.
  - destruct (Nat.eq_dec b n) as [EB|NB].
    + rewrite (rsum_ext n _ (fun j => vget (nth j ev []) b * vget (nth j ev []) a)) by (intros; ring). rewrite Z by auto.
      destruct (Nat.eqb_spec a b); [lia|]. auto.
    + destruct (Nat.ltb_spec a n); [|lia]. rewrite andb_true_r. rewrite <- (onb_cols n ev a b OB) by lia.
      rewrite (dot_rs n) by (rewrite col_len; auto). apply rsum_ext. intros j Hj. rewrite !col_get by lia. auto.
Qed.
Theorem moments_exact : forall n ew ev k, eigh_full n (jacobi n) ew ev -> (k < 2 * n)%nat -> mQ n ew ev k = mI k.
Proof.
  intros n ew ev k H Hk. apply (moments_agree n); auto. intros a b Ha Hb. rewrite mI_orth, (mQ_orth n) by (auto; lia).
  destruct (Nat.eqb_spec a b) as [->|]; auto. destruct (Nat.ltb_spec b n); [auto|lia].
Qed.
Theorem moments_differ : forall n ew ev, eigh_full n (jacobi n) ew ev -> mQ n ew ev (n + n) <> mI (n + n).
Proof.
  intros n ew ev H C. destruct (mom_G n n) as (al & be & A1 & A2 & B1 & B2 & X). rewrite (X (mQ n ew ev)), (X mI) in C.
  cbn [rsum] in C.
  rewrite (rsum_ext n (fun a => rsum n (fun b => al a * be b * G (mQ n ew ev) a b) + al a * be n * G (mQ n ew ev) a n)
     (fun a => rsum n (fun b => al a * be b * G mI a b) + al a * be n * G mI a n)) in C.
  2:{ intros a Ha. rewrite (mQ_orth n) by (auto; lia). rewrite mI_orth. f_equal.
      - apply rsum_ext. intros b Hb. rewrite (mQ_orth n) by (auto; lia). rewrite mI_orth. destruct (Nat.ltb_spec a n); [|lia]. rewrite andb_true_r. auto.
      - destruct (Nat.eqb_spec a n); [lia|auto]. }
  rewrite (rsum_ext n (fun b => al n * be b * G (mQ n ew ev) n b) (fun b => al n * be b * G mI n b)) in C.
  2:{ intros b Hb. rewrite (mQ_orth n) by (auto; lia). rewrite mI_orth. destruct (Nat.eqb_spec n b); [lia|auto]. }
  rewrite (mQ_orth n) in C by (auto; lia). rewrite mI_orth in C. rewrite Nat.eqb_refl, Nat.ltb_irrefl in C. cbn [andb] in C.
  assert (al n * be n <> 0) by (apply Rmult_integral_contrapositive; auto). lra.
Qed.

(* ---------------- polynomials by their coefficients ---------------- *)
(** c_0 + c_1 x + ... *)
Fixpoint polyval (c : vec) (x : R) : R := match c with [] => 0 | a :: c' => a + x * polyval c' x end.

Lemma polyval_app0 : forall c x, polyval (c ++ [0]) x = polyval c x.
Proof. induction c as [|a c IH]; intro x; simpl; [ring|rewrite IH; auto]. Qed.
Lemma polyval_scale : forall s c x, polyval (map (Rmult s) c) x = s * polyval c x.
Proof. intros s c x. induction c as [|a c IH]; simpl; [ring|rewrite IH; ring]. Qed.
Fixpoint padd (c d : vec) : vec := match c, d with a :: c', b :: d' => (a + b) :: padd c' d' | _, _ => [] end.
Lemma padd_len : forall c d, length c = length d -> length (padd c d) = length c.
Proof. induction c as [|a c IH]; intros [|b d] H; simpl in *; auto. Qed.
Lemma polyval_add : forall c d x, length c = length d -> polyval (padd c d) x = polyval c x + polyval d x.
Proof. induction c as [|a c IH]; intros [|b d] x H; simpl in *; try lia; [ring|]. rewrite IH by lia. ring. Qed.
(** a polynomial after an affine change of variable *)
Lemma polyval_affine : forall al be c, exists d, length d = length c /\ forall t, polyval d t = polyval c (al + be * t).
Proof.
  intros al be c. induction c as [|a c (d & L & H)].
  - exists []. split; auto.
  - destruct d as [|d0 d'] eqn:ED.
    + destruct c; [|discriminate]. exists [a]. split; auto. intro t. simpl. ring.
    + rewrite <- ED in *. exists (padd (map (Rmult al) d ++ [0]) (a :: map (Rmult be) d)). split.
      * rewrite padd_len; rewrite app_length, map_length; simpl; rewrite ?map_length; lia.
      * intro t. rewrite polyval_add by (rewrite app_length, map_length; simpl; rewrite ?map_length; lia).
        rewrite polyval_app0. cbn [polyval]. rewrite !polyval_scale, H. ring.
Qed.

Lemma core_exact : forall n ew ev c k, eigh_full n (jacobi n) ew ev -> (k + length c <= 2 * n)%nat ->
  integ (fun x => x ^ k * polyval c x) (2 * rsum n (fun j => c2 ev j * (vget ew j ^ k * polyval c (vget ew j)))).
Proof.
  intros n ew ev c. induction c as [|a c IH]; intros k H Hk.
  - rewrite rsum_zero by (intros; simpl; ring). rewrite Rmult_0_r. apply (integ_ext _ _ _ integ_zero). intro x. simpl. ring.
  - simpl in Hk. pose proof (IH (S k) H ltac:(lia)) as I. pose proof (integ_mono k) as M. rewrite <- (moments_exact n ew ev k) in M by (auto; lia).
    replace (2 * rsum n (fun j => c2 ev j * (vget ew j ^ k * polyval (a :: c) (vget ew j)))) with
      (a * (2 * mQ n ew ev k) + 1 * (2 * rsum n (fun j => c2 ev j * (vget ew j ^ S k * polyval c (vget ew j))))).
    + apply (integ_lin _ _ _ _ _ _ _ M I). intro x. simpl. ring.
    + unfold mQ. rewrite Rmult_1_l.
      rewrite (rsum_ext n (fun j => c2 ev j * (vget ew j ^ k * polyval (a :: c) (vget ew j)))
        (fun j => a * (c2 ev j * vget ew j ^ k) + c2 ev j * (vget ew j ^ S k * polyval c (vget ew j)))) by (intros; simpl; ring).
      rewrite rsum_plus, rsum_scal_l. ring.
Qed.

(** what a rule computes *)
Definition rule_sum (f : R -> R) (xs ws : vec) : R := vsum (map (fun xw => snd xw * f (fst xw)) (combine xs ws)).

Lemma gauss_rule_sum : forall n ew ev a b f, length ew = n -> length ev = n ->
  rule_sum f (gauss_x ew a b) (gauss_w ev a b) = (b - a) * rsum n (fun j => c2 ev j * f (a + (b - a) / 2 * (1 + vget ew j))).
Proof.
  intros n ew. revert n. induction ew as [|l ew IH]; intros n ev a b f L1 L2; destruct ev as [|v ev]; simpl in L1, L2; subst n; try lia.
  - unfold rule_sum, vsum. simpl. ring.
  - unfold rule_sum in *. unfold gauss_x, gauss_w in *. cbn [map combine fst snd]. rewrite vsum_cons. rewrite (IH (length ew)) by lia.
    rewrite rsum_S_first, (Rmult_plus_distr_l (b - a)). apply f_equal2; [|reflexivity]. unfold c2. cbn [nth]. change (vget (l :: ew) 0) with l. field.
Qed.

(** C126: the N-point rule is exact for polynomials with 2N coefficients *)
Theorem gauss_exact : forall n ew ev a b c F, eigh_full n (jacobi n) ew ev -> (length c <= 2 * n)%nat ->
  (forall x, derivable_pt_lim F x (polyval c x)) ->
  rule_sum (polyval c) (gauss_x ew a b) (gauss_w ev a b) = F b - F a.
Proof.
  intros n ew ev a b c F H Lc DF. rewrite (gauss_rule_sum n) by apply H.
  destruct (polyval_affine (a + (b - a) / 2) ((b - a) / 2) c) as (d & Ld & Hd).
  pose proof (core_exact n ew ev d 0 H ltac:(lia)) as I.
  assert (J : integ (fun t => (b - a) / 2 * polyval d t) (F b - F a)).
  { exists (fun t => F (a + (b - a) / 2 + (b - a) / 2 * t)). split.
    - intro t. rewrite Hd. rewrite Rmult_comm.
      apply (derivable_pt_lim_comp (fun t => a + (b - a) / 2 + (b - a) / 2 * t) F); [|apply DF].
      apply derivable_pt_lim_ext with (f := (fct_cte (a + (b - a) / 2) + mult_real_fct ((b - a) / 2) id)%F); [intro; reflexivity|].
      replace ((b - a) / 2) with (0 + (b - a) / 2 * 1) at 3 by ring. apply derivable_pt_lim_plus; [apply derivable_pt_lim_const|].
      apply derivable_pt_lim_scal, derivable_pt_lim_id.
    - f_equal; f_equal; field. }
  assert (J2 : integ (fun t => (b - a) / 2 * polyval d t) ((b - a) / 2 * (2 * rsum n (fun j => c2 ev j * (vget ew j ^ 0 * polyval d (vget ew j)))) + 0 * 0)).
  { apply (integ_lin _ _ _ _ _ _ _ I integ_zero). intro x. simpl. ring. }
  rewrite (integ_unique _ _ _ J J2).
  rewrite (rsum_ext n (fun j => c2 ev j * (vget ew j ^ 0 * polyval d (vget ew j))) (fun j => c2 ev j * polyval c (a + (b - a) / 2 * (1 + vget ew j)))).
  2:{ intros j _. rewrite Hd. simpl. replace (a + (b - a) / 2 + (b - a) / 2 * vget ew j) with (a + (b - a) / 2 * (1 + vget ew j)) by ring. ring. }
  field.
Qed.

(* ---------------- Riemann integrals ---------------- *)
Lemma poly_antider : forall c k, exists F, forall x, derivable_pt_lim F x (x ^ k * polyval c x).
Proof.
  induction c as [|a c IH]; intro k.
  - exists (fct_cte 0). intro x. simpl. rewrite Rmult_0_r. apply derivable_pt_lim_const.
  - destruct (IH (S k)) as (F & HF). assert (N : INR (S k) <> 0) by (apply not_0_INR; lia).
    exists (mult_real_fct (a / INR (S k)) (fun x => x ^ (S k)) + F)%F. intro x.
    replace (x ^ k * polyval (a :: c) x) with (a / INR (S k) * (INR (S k) * x ^ pred (S k)) + x ^ S k * polyval c x).
    + apply derivable_pt_lim_plus; auto. apply derivable_pt_lim_scal, derivable_pt_lim_pow.
    + cbn [pred polyval]. simpl (x ^ S k). field. auto.
Qed.
Lemma polyval_antider : forall c, exists F, forall x, derivable_pt_lim F x (polyval c x).
Proof. intro c. destruct (poly_antider c 0) as (F & H). exists F. intro x. specialize (H x). simpl in H. rewrite Rmult_1_l in H. auto. Qed.
Lemma polyval_cont : forall c, continuity (polyval c).
Proof.
  induction c as [|a c IH]; intro x.
  - apply (continuity_pt_const). intros u v. reflexivity.
  - apply continuity_pt_plus with (f1 := fct_cte a) (f2 := (id * polyval c)%F).
    + apply continuity_pt_const. intros u v. reflexivity.
    + apply continuity_pt_mult; [apply derivable_continuous_pt, derivable_pt_id|apply IH].
Qed.
Lemma poly_riemann : forall c F a b (pr : Riemann_integrable (polyval c) a b), a <= b -> (forall x, derivable_pt_lim F x (polyval c x)) -> RiemannInt pr = F b - F a.
Proof.
  intros c F a b pr AB D.
  assert (d0 : derivable F) by (intro x; exists (polyval c x); apply D).
  assert (E : forall x, derive F d0 x = polyval c x) by (intro x; unfold derive; apply derive_pt_eq_0, D).
  assert (C : continuity (derive F d0)).
  { intros x eps He. destruct (polyval_cont c x eps He) as (al & Ha & K). exists al. split; auto. intros y Hy. rewrite !E. apply K; auto. }
  set (f := mkC1 C). assert (pr2 : Riemann_integrable (derive f (diff0 f)) a b).
  { apply continuity_implies_RiemannInt; auto. }
  transitivity (RiemannInt pr2); [|apply (FTC_Riemann f pr2)]. apply RiemannInt_P18; auto.
Qed.
(** the rule computes the Riemann integral *)
Theorem gauss_riemann : forall n ew ev a b c (pr : Riemann_integrable (polyval c) a b), eigh_full n (jacobi n) ew ev -> (length c <= 2 * n)%nat -> a <= b ->
  rule_sum (polyval c) (gauss_x ew a b) (gauss_w ev a b) = RiemannInt pr.
Proof.
  intros n ew ev a b c pr H L AB. destruct (polyval_antider c) as (F & D). rewrite (poly_riemann c F a b pr AB D). apply (gauss_exact n); auto.
Qed.
Lemma poly_integrable : forall c a b, a <= b -> exists pr : Riemann_integrable (polyval c) a b, True.
Proof. intros c a b AB. assert (P : Riemann_integrable (polyval c) a b) by (apply continuity_implies_RiemannInt; auto; intros; apply polyval_cont). exists P. auto. Qed.

(** one degree more is too much: some polynomial of degree 2n is not integrated exactly *)
Theorem gauss_sharp : forall n ew ev a b, eigh_full n (jacobi n) ew ev -> a < b ->
  exists c F, length c = S (2 * n) /\ (forall x, derivable_pt_lim F x (polyval c x)) /\
    rule_sum (polyval c) (gauss_x ew a b) (gauss_w ev a b) <> F b - F a.
Proof.
  intros n ew ev a b H AB. set (h := (b - a) / 2). assert (Hh : 0 < h) by (unfold h; lra).
  assert (M : forall k, exists d, length d = S k /\ forall t, polyval d t = t ^ k).
  { induction k as [|k (d & L & E)]; [exists [1]; split; auto; intro t; simpl; ring|].
    exists (0 :: d). split; [simpl; lia|]. intro t. simpl. rewrite E. ring. }
  destruct (M (n + n)%nat) as (d & Ld & Ed).
  destruct (polyval_affine (- (a + h) / h) (/ h) d) as (c & Lc & Ec). destruct (polyval_antider c) as (F & DF).
  exists c, F. split; [lia|]. split; auto. intro C. rewrite (gauss_rule_sum n) in C by apply H. apply (moments_differ n ew ev H).
  assert (J : integ (fun t => t ^ (n + n)) (/ h * (F b - F a))).
  { exists (mult_real_fct (/ h) (fun t => F (a + h + h * t))). split.
    - intro t. replace (t ^ (n + n)) with (/ h * (polyval c (a + h + h * t) * h)).
      + apply derivable_pt_lim_scal. apply (derivable_pt_lim_comp (fun t => a + h + h * t) F); [|apply DF].
        apply derivable_pt_lim_ext with (f := (fct_cte (a + h) + mult_real_fct h id)%F); [intro; reflexivity|].
        replace h with (0 + h * 1) at 3 by ring. apply derivable_pt_lim_plus; [apply derivable_pt_lim_const|].
        apply derivable_pt_lim_scal, derivable_pt_lim_id.
      + rewrite Ec, Ed. replace (- (a + h) / h + / h * (a + h + h * t)) with t by (field; lra). field. lra.
    - unfold mult_real_fct. replace (a + h + h * 1) with b by (unfold h; field). replace (a + h + h * -1) with a by (unfold h; field). ring. }
  pose proof (integ_unique _ _ _ J (integ_mono (n + n))) as E. rewrite <- C in E.
  apply Rmult_eq_reg_l with 2; [|lra]. rewrite <- E. unfold mQ.
  rewrite (rsum_ext n (fun j => c2 ev j * polyval c (a + (b - a) / 2 * (1 + vget ew j))) (fun j => c2 ev j * vget ew j ^ (n + n))).
  - unfold h. field. lra.
  - intros j _. rewrite Ec, Ed. f_equal. f_equal. fold h. field. lra.
Qed.

(* ---------------- nodes and weights ---------------- *)
Lemma eig_first_nz : forall n v l, length v = n -> dot v v = 1 -> mv (jacobi n) v = vscale l v -> vget v 0 <> 0.
Proof.
  intros n v l L U E Z. rewrite (dot_rs n) in U by auto. rewrite rsum_zero in U; [lra|]. intros i Hi.
  rewrite (eigvec_entries n v l i) by (auto; lia). rewrite Z. ring.
Qed.
Lemma eig_last_nz : forall n v l, length v = S n -> dot v v = 1 -> mv (jacobi (S n)) v = vscale l v -> vget v n <> 0.
Proof.
  intros n v l L U E Z. assert (K : forall k, (k <= n)%nat -> vget v (n - k) = 0 /\ vget v (S (n - k)) = 0).
  { induction k as [|k IH]; intro Hk.
    - rewrite Nat.sub_0_r. split; auto. apply vget_over. lia.
    - destruct IH as [I1 I2]; [lia|]. replace (S (n - S k)) with (n - k)%nat by lia. split; auto.
      pose proof (jacobi_row (S n) v l (n - k) L E ltac:(lia)) as J. replace (n - k)%nat with (S (n - S k)) in J by lia. cbv iota in J.
      replace (S (n - S k)) with (n - k)%nat in J by lia. rewrite I1, I2 in J. pose proof (gb_pos (n - S k)) as P.
      replace (S (n - S k)) with (n - k)%nat in P by lia. apply Rmult_eq_reg_l with (gb (n - k)); lra. }
  apply (eig_first_nz (S n) v l L U E). destruct (K n (le_n n)) as [K1 _]. rewrite Nat.sub_diag in K1. auto.
Qed.
Lemma jacobi_eig_strict : forall n v l, length v = n -> dot v v = 1 -> mv (jacobi n) v = vscale l v -> -1 < l < 1.
Proof.
  intros n v l L U E. destruct n as [|n]; [destruct v; [rewrite dot_nil_l in U; lra|discriminate]|].
  assert (Q : qform (S n) (vget v) = l) by (rewrite <- jacobi_qform, E, dot_vscale_r, U by auto; ring).
  assert (N : rsum (S n) (fun i => vget v i * vget v i) = 1) by (rewrite <- U, dot_rsum, L; auto).
  pose proof (qform_bound 1 n (vget v) ltac:(ring)) as B1. pose proof (qform_bound (-1) n (vget v) ltac:(ring)) as B2.
  rewrite Q, N in *. pose proof (pos_INR n) as P.
  assert (0 < (INR n + 1) / (2 * INR n + 1) * (vget v n * vget v n)).
  { apply Rmult_lt_0_compat; [apply Rdiv_lt_0_compat; lra|]. pose proof (eig_last_nz n v l L U E) as Z. apply Rlt_0_sqr in Z. exact Z. }
  lra.
Qed.
Theorem gauss_nodes : forall n ew ev a b, eigh_full n (jacobi n) ew ev -> a < b ->
  Forall (fun x => a < x < b) (gauss_x ew a b) /\ Forall (fun w => 0 < w) (gauss_w ev a b) /\ NoDup (gauss_x ew a b).
Proof.
  intros n ew ev a b (L1 & L2 & F & E & O) AB. assert (LJ : forall j, (j < n)%nat -> length (nth j ev []) = n) by (intros j Hj; rewrite Forall_forall in F; apply F, nth_In; lia).
  assert (U : forall j, (j < n)%nat -> dot (nth j ev []) (nth j ev []) = 1) by (intros j Hj; rewrite O, Nat.eqb_refl; auto).
  split; [|split].
  - apply Forall_forall. intros x Hx. apply in_map_iff in Hx. destruct Hx as (t & <- & T). destruct (In_nth _ _ 0 T) as (j & J1 & J2).
    assert (B : -1 < t < 1) by (rewrite <- J2; apply (jacobi_eig_strict n (nth j ev [])); [apply LJ|apply U|apply E]; lia). nra.
  - apply Forall_forall. intros w Hw. apply in_map_iff in Hw. destruct Hw as (c & <- & T). destruct (In_nth _ _ [] T) as (j & J1 & J2). subst c.
    assert (Z : vget (nth j ev []) 0 <> 0) by (apply (eig_first_nz n _ (vget ew j)); [apply LJ|apply U|apply E]; lia).
    apply Rlt_0_sqr in Z. unfold Rsqr in Z. apply Rmult_lt_0_compat; lra.
  - unfold gauss_x. apply FinFun.Injective_map_NoDup; [intros x y H; nra|].
    rewrite NoDup_nth with (d := 0). intros i j Hi Hj Q. destruct (Nat.eq_dec i j) as [|NE]; auto. exfalso.
    assert (D : dot (nth i ev []) (nth j ev []) = 0) by (rewrite O by lia; destruct (Nat.eqb_spec i j); [lia|auto]).
    pose proof (U i ltac:(lia)) as Ui. pose proof (E i ltac:(lia)) as Ei. pose proof (E j ltac:(lia)) as Ej. fold (vget ew i) (vget ew j) in Q.
    assert (Zi : vget (nth i ev []) 0 <> 0) by (apply (eig_first_nz n _ (vget ew i)); auto; [apply LJ; lia]).
    assert (Zj : vget (nth j ev []) 0 <> 0) by (apply (eig_first_nz n _ (vget ew j)); auto; [apply LJ; lia|apply U; lia]).
    rewrite (dot_rs n) in D, Ui by (apply LJ; lia).
    assert (X : vget (nth i ev []) 0 * rsum n (fun k => vget (nth i ev []) k * vget (nth j ev []) k) = vget (nth j ev []) 0 * rsum n (fun k => vget (nth i ev []) k * vget (nth i ev []) k)).
    { rewrite <- !rsum_scal_l. apply rsum_ext. intros k Hk. rewrite (eigvec_entries n (nth i ev []) (vget ew i) k) by (try apply LJ; auto; lia).
      rewrite (eigvec_entries n (nth j ev []) (vget ew j) k) by (try apply LJ; auto; lia). rewrite Q. ring. }
    rewrite D, Ui in X. lra.
Qed.

(* ---------------- tensor rules ---------------- *)
(** the iterated integral of f over the box [l, u] *)
Fixpoint boxint (l u : vec) (f : vec -> R) (v : R) : Prop :=
  match l, u with
  | a :: l', b :: u' => exists g F : R -> R, (forall x, boxint l' u' (fun y => f (x :: y)) (g x)) /\ (forall x, derivable_pt_lim F x (g x)) /\ v = F b - F a
  | _, _ => v = f []
  end.
(** f restricted to vectors of length m is a polynomial with at most d coefficients in each variable *)
Fixpoint mpoly (d m : nat) (f : vec -> R) : Prop :=
  match m with
  | O => True
  | S m' => exists fs : list (vec -> R), (length fs <= d)%nat /\ Forall (mpoly d m') fs /\
              forall x y, length y = m' -> f (x :: y) = polyval (map (fun g => g y) fs) x
  end.
Definition full_rules (q : nat) (l u : vec) (rules : list (vec * vec)) : Prop :=
  Forall2 (fun lu r => exists ew ev, eigh_full q (jacobi q) ew ev /\ r = (gauss_x ew (fst lu) (snd lu), gauss_w ev (fst lu) (snd lu))) (combine l u) rules.
Definition cub (f : vec -> R) (res : list (vec * R)) : R := vsum (map (fun pw => snd pw * f (fst pw)) res).

Lemma cub_cons : forall f x w rs, length x = length w -> cub f (cart_w ((x, w) :: rs)) = rule_sum (fun t => cub (fun y => f (t :: y)) (cart_w rs)) x w.
Proof.
  intros f x w rs. unfold cub, rule_sum. cbn [cart_w]. revert w. induction x as [|a x IH]; intros [|b w] H; simpl in H; try lia; auto.
  cbn [combine flat_map map]. rewrite map_app, vsum_app, IH by lia. rewrite vsum_cons. f_equal. cbn [fst snd]. rewrite map_map. cbn [fst snd].
  rewrite <- (vsum_map_scale _ (fun pw => snd pw * f (a :: fst pw))). f_equal. apply map_ext. intro pw. ring.
Qed.
Lemma cart_w_dim : forall rs p w, In (p, w) (cart_w rs) -> length p = length rs.
Proof. intros rs p w H. apply cart_w_in in H. destruct H as (ws & _ & L & _). auto. Qed.
Lemma cub_ext : forall f g res, (forall p w, In (p, w) res -> f p = g p) -> cub f res = cub g res.
Proof. intros f g res H. unfold cub. f_equal. apply map_ext_in. intros [p w] I. simpl. rewrite (H p w); auto. Qed.
Lemma rule_sum_ext : forall f g x w, (forall t, f t = g t) -> rule_sum f x w = rule_sum g x w.
Proof. intros f g x w H. unfold rule_sum. f_equal. apply map_ext. intro. rewrite H. auto. Qed.
Lemma cub_poly : forall fs res x, cub (fun y => polyval (map (fun g => g y) fs) x) res = polyval (map (fun g => cub g res) fs) x.
Proof.
  intros fs res x. induction fs as [|g fs IH]; cbn [map polyval].
  - unfold cub. induction res as [|r res IHr]; [reflexivity|]. cbn [map]. rewrite vsum_cons, IHr. ring.
  - rewrite <- IH. unfold cub. clear IH. induction res as [|r res IHr]; [unfold vsum; simpl; ring|]. cbn [map]. rewrite !vsum_cons, IHr. ring.
Qed.
Lemma boxint_ext : forall l u f g v, length l = length u -> (forall y, length y = length l -> f y = g y) -> boxint l u f v -> boxint l u g v.
Proof.
  induction l as [|a l IH]; intros [|b u] f g v L E H; simpl in L; try lia; cbn [boxint] in *.
  - rewrite H. apply E. auto.
  - destruct H as (h & F & H1 & H2 & H3). exists h, F. split; auto. intro x. apply (IH u (fun y => f (x :: y))); auto. intros y Ly. apply E. simpl. lia.
Qed.

(** polynomials in several variables form a linear space *)
Lemma mpoly_ext : forall d m f g, mpoly d m f -> (forall y, length y = m -> f y = g y) -> mpoly d m g.
Proof.
  intros d [|m] f g M E; [exact I|]. destruct M as (fs & L & F & H). exists fs. split; auto. split; auto.
  intros x y Ly. rewrite <- H by auto. symmetry. apply E. simpl. lia.
Qed.
Fixpoint fadd (fs gs : list (vec -> R)) : list (vec -> R) :=
  match fs, gs with f :: fs', g :: gs' => (fun y => f y + g y) :: fadd fs' gs' | [], _ => gs | _, [] => fs end.
Lemma fadd_len : forall d fs gs, (length fs <= d)%nat -> (length gs <= d)%nat -> (length (fadd fs gs) <= d)%nat.
Proof.
  intros d fs. revert d. induction fs as [|f fs IH]; intros d [|g gs] L1 L2; simpl in *; auto. destruct d; [lia|]. apply le_n_S, IH; lia.
Qed.
Lemma fadd_val : forall fs gs y x, polyval (map (fun g => g y) (fadd fs gs)) x = polyval (map (fun g => g y) fs) x + polyval (map (fun g => g y) gs) x.
Proof. induction fs as [|f fs IH]; intros [|g gs] y x; simpl; try ring. rewrite IH. ring. Qed.
Lemma mpoly_add : forall d m f g, mpoly d m f -> mpoly d m g -> mpoly d m (fun y => f y + g y).
Proof.
  intros d m. induction m as [|m IH]; intros f g Mf Mg; [exact I|]. destruct Mf as (fs & L1 & F1 & H1). destruct Mg as (gs & L2 & F2 & H2).
  exists (fadd fs gs). split; [apply fadd_len; auto|]. split.
  - clear - IH F1 F2. revert gs F2. induction F1 as [|f fs P F1 IHF]; intros gs F2; [destruct gs; auto|]. destruct F2; cbn [fadd]; constructor; auto.
  - intros x y Ly. rewrite H1, H2 by auto. rewrite fadd_val. auto.
Qed.
Lemma mpoly_scale : forall d m s f, mpoly d m f -> mpoly d m (fun y => s * f y).
Proof.
  intros d m s. induction m as [|m IH]; intros f Mf; [exact I|]. destruct Mf as (fs & L1 & F1 & H1).
  exists (map (fun g y => s * g y) fs). split; [rewrite map_length; auto|]. split.
  - rewrite Forall_map. apply Forall_impl with (2 := F1). auto.
  - intros x y Ly. rewrite H1 by auto. rewrite map_map. clear. induction fs as [|f fs IH]; simpl; [ring|]. rewrite <- IH. ring.
Qed.
Lemma mpoly_zero : forall d m, mpoly d m (fun _ => 0).
Proof. intros d [|m]; [exact I|]. exists []. split; [simpl; lia|]. split; auto. Qed.
Lemma mpoly_slice : forall d m fs x, Forall (mpoly d m) fs -> mpoly d m (fun y => polyval (map (fun g => g y) fs) x).
Proof.
  intros d m fs x F. induction F as [|f fs P F IH]; cbn [map polyval]; [apply mpoly_zero|]. apply mpoly_add; auto. apply mpoly_scale. auto.
Qed.

Lemma forall2_len : forall (A B : Type) (P : A -> B -> Prop) x y, Forall2 P x y -> length x = length y.
Proof. intros A B P x y H. induction H; simpl; auto. Qed.

Theorem cub_exact : forall q l u rules f v, length l = length u -> full_rules q l u rules -> mpoly (2 * q) (length l) f -> boxint l u f v ->
  cub f (cart_w rules) = v.
Proof.
  intros q l. induction l as [|a l IH]; intros [|b u] rules f v L R M B; simpl in L; try lia.
  - inversion R. subst. cbn [boxint] in B. subst v. unfold cub. simpl. unfold vsum. simpl. ring.
  - unfold full_rules in R. cbn [combine] in R. inversion R as [|? r ? rs (ew & ev & EF & ER) R' X1 X2]. subst. clear R.
    cbn [length mpoly] in M. destruct M as (fs & Lf & Ff & Ef). cbn [boxint] in B. destruct B as (g & F & H1 & H2 & ->). cbn [fst snd].
    assert (LR : length rs = length l).
    { apply forall2_len in R'. rewrite combine_length in R'. lia. }
    rewrite cub_cons by (unfold gauss_x, gauss_w; rewrite !map_length; destruct EF as (? & ? & _); lia).
    assert (GP : forall x, g x = polyval (map (fun g => cub g (cart_w rs)) fs) x).
    { intro x. rewrite <- cub_poly. symmetry. rewrite <- (cub_ext (fun y => f (x :: y))).
      - apply (IH u rs (fun y => f (x :: y)) (g x)); [lia|exact R'| |apply H1].
        apply (mpoly_ext _ _ (fun y => polyval (map (fun g => g y) fs) x)); [|intros y Ly; symmetry; apply Ef; auto]. apply mpoly_slice; auto.
      - intros p w I. apply cart_w_dim in I. apply Ef. lia. }
    rewrite (rule_sum_ext _ (polyval (map (fun g => cub g (cart_w rs)) fs))).
    + apply (gauss_exact q); auto; [rewrite map_length; auto|]. intro x. rewrite <- GP. apply H2.
    + intro t. rewrite <- cub_poly. apply cub_ext. intros p w I. apply cart_w_dim in I. apply Ef. lia.
Qed.

(** the box integral of a polynomial exists and is unique *)
Lemma boxint_unique : forall l u f v w, length l = length u -> boxint l u f v -> boxint l u f w -> v = w.
Proof.
  induction l as [|a l IH]; intros [|b u] f v w L H1 H2; simpl in L; try lia; cbn [boxint] in *; [congruence|].
  destruct H1 as (g & F & A1 & A2 & ->). destruct H2 as (h & K & B1 & B2 & ->). apply (antider_unique F K g); auto.
  intro x. rewrite (IH u (fun y => f (x :: y)) (g x) (h x)); auto.
Qed.
Theorem boxint_exists : forall q l u f, length l = length u -> mpoly (2 * q) (length l) f -> exists v, boxint l u f v.
Proof.
  intros q l u f L M. destruct (eigh_full_solvable q) as (ew & ev & E).
  revert u f L M. induction l as [|a l IH]; intros [|b u] f L M; simpl in L; try lia; [exists (f []); reflexivity|].
  cbn [length mpoly] in M. destruct M as (fs & Lf & Ff & Ef).
  assert (RS : exists rs, full_rules q l u rs).
  { clear - E. unfold full_rules. induction (combine l u) as [|lu c (rs & H)]; [exists []; auto|].
    exists ((gauss_x ew (fst lu) (snd lu), gauss_w ev (fst lu) (snd lu)) :: rs). constructor; auto. exists ew, ev. auto. }
  destruct RS as (rs & RS). set (g := polyval (map (fun h => cub h (cart_w rs)) fs)). destruct (polyval_antider (map (fun h => cub h (cart_w rs)) fs)) as (F & D).
  exists (F b - F a). cbn [boxint]. exists g, F. split; auto. intro x.
  assert (MS : mpoly (2 * q) (length l) (fun y => f (x :: y))).
  { apply (mpoly_ext _ _ (fun y => polyval (map (fun g => g y) fs) x)); [apply mpoly_slice; auto|]. intros y Ly. symmetry. apply Ef. auto. }
  destruct (IH u (fun y => f (x :: y)) ltac:(lia) MS) as (v & V). replace (g x) with v; auto.
  rewrite <- (cub_exact q l u rs (fun y => f (x :: y)) v) by (auto; lia). unfold g. rewrite <- cub_poly. apply cub_ext. intros p w I.
  apply cart_w_dim in I. apply Ef. apply forall2_len in RS. rewrite combine_length in RS. lia.
Qed.

(** on a box domain quadrature_rule keeps every point and integrates polynomials of degree at most 2q-1 in each variable exactly *)
Theorem quadrature_box_exact : forall fuel l u tol rules N q f v, ordered l u -> 0 < tol -> (1 <= q)%nat -> full_rules q l u (rules q) ->
  mpoly (2 * q) (length l) f -> boxint l u f v ->
  exists res, quadrature_gauss fuel (box_of l u) tol rules N q = Some res /\ cub f res = v.
Proof.
  intros fuel l u tol rules N q f v O Ht Hq R M B.
  assert (R' : Forall2 (fun lu r => exists ew ev, eigh_contract q (jacobi q) ew ev /\ r = (gauss_x ew (fst lu) (snd lu), gauss_w ev (fst lu) (snd lu))) (combine l u) (rules q)).
  { clear - R Hq. unfold full_rules in R. induction R as [|lu r c rs (ew & ev & E1 & E2) R IH]; constructor; auto. exists ew, ev. split; auto. apply eigh_full_contract; auto. }
  destruct (gauss_rules_facts l u (rules q) q O R') as [X1 [X2 [X3 X4]]].
  exists (cart_w (rules q)). split; [|apply (cub_exact q l u); auto; apply O].
  assert (A : quad_inside (box_of l u) tol (rules q) = cart_w (rules q)).
  { apply filter_all. intros [p w] H. apply inside1_spec; [apply box_of_wf; apply O|discriminate|]. apply member_relaxed1; auto. apply box_member; [apply O|].
    apply cart_w_in in H. destruct H as [ws [W1 [W2 [W3 W4]]]]. simpl. split; [lia|]. apply (X4 p ws); auto. }
  unfold quadrature_gauss. rewrite A. rewrite (cart_w_length _ q) by auto.
  assert (DD : dim (box_of l u) = length l) by reflexivity. rewrite DD, X1, Nat.eqb_refl. auto.
Qed.

(* ---------------- concrete cases ---------------- *)
(** the two-point rule integrates x^3 over [3,5] to 136 *)
Example gauss_exact_case : let g := gbeta 1 in let s := sqrt (1/2) in let ew := [- g; g] in let ev := [[s; - s]; [s; s]] in
  eigh_full 2 (jacobi 2) ew ev /\ rule_sum (polyval [0; 0; 0; 1]) (gauss_x ew 3 5) (gauss_w ev 3 5) = 136.
Proof.
  intros g s ew ev. assert (SS : s * s = 1/2) by (apply sqrt_sqrt; lra).
  assert (E : eigh_full 2 (jacobi 2) ew ev).
  { split; auto. split; auto. split; [repeat constructor|]. split.
    - assert (J : jacobi 2 = [[0; g]; [g; 0]]) by reflexivity. rewrite J.
      intros j Hj. destruct j as [|[|j]]; [| |lia]; cbn [nth ev]; unfold mv, vget; simpl; rewrite ?dot_cons, ?dot_nil_l;
        unfold vscale; simpl; f_equal; try (apply (f_equal (fun t => [t]))); ring.
    - intros i j Hi Hj. destruct i as [|[|i]]; [| |lia]; (destruct j as [|[|j]]; [| |lia]); cbn [nth ev Nat.eqb]; rewrite !dot_cons, dot_nil_l; lra. }
  split; auto. rewrite (gauss_exact 2 ew ev 3 5 [0; 0; 0; 1] (mult_real_fct (/ 4) (fun x => x ^ 4)) E ltac:(simpl; lia)).
  - unfold mult_real_fct. field.
  - intro x. replace (polyval [0; 0; 0; 1] x) with (/ 4 * (INR 4 * x ^ pred 4)) by (simpl; field). apply derivable_pt_lim_scal, derivable_pt_lim_pow.
Qed.
(** x^2 over [0,1] as a Riemann integral, with a rule of five points *)
Example gauss_riemann_case : exists ew ev (pr : Riemann_integrable (polyval [0; 0; 1]) 0 1), eigh_full 5 (jacobi 5) ew ev /\
  rule_sum (polyval [0; 0; 1]) (gauss_x ew 0 1) (gauss_w ev 0 1) = RiemannInt pr /\ RiemannInt pr = 1 / 3.
Proof.
  destruct (eigh_full_solvable 5) as (ew & ev & E). destruct (poly_integrable [0; 0; 1] 0 1 ltac:(lra)) as (pr & _). exists ew, ev, pr.
  split; auto. split; [apply (gauss_riemann 5); auto; [simpl; lia|lra]|].
  rewrite (poly_riemann _ (mult_real_fct (/ 3) (fun x => x ^ 3))); [unfold mult_real_fct; field|lra|].
  intro x. replace (polyval [0; 0; 1] x) with (/ 3 * (INR 3 * x ^ pred 3)) by (simpl; field). apply derivable_pt_lim_scal, derivable_pt_lim_pow.
Qed.
(** one point: the midpoint rule is not exact for squares *)
Example gauss_sharp_case : eigh_full 1 (jacobi 1) [0] [[1]] /\ rule_sum (polyval [0; 0; 1]) (gauss_x [0] 0 1) (gauss_w [[1]] 0 1) = 1 / 4.
Proof.
  split.
  - split; auto. split; auto. split; [repeat constructor|]. split.
    + intros j Hj. destruct j; [|lia]. unfold mv, vscale, jacobi. simpl. rewrite dot_cons, dot_nil_l. unfold vget. simpl. f_equal. ring.
    + intros i j Hi Hj. destruct i, j; try lia. simpl. rewrite dot_cons, dot_nil_l. ring.
  - unfold rule_sum, gauss_x, gauss_w, vget, vsum. simpl. field.
Qed.
(** x^3 y^2 over [3,5] x [0,2] with two points per axis *)
Example quadrature_box_exact_case : exists rules res, full_rules 2 [3; 0] [5; 2] rules /\
  mpoly 4 2 (fun p => vget p 0 ^ 3 * vget p 1 ^ 2) /\ boxint [3; 0] [5; 2] (fun p => vget p 0 ^ 3 * vget p 1 ^ 2) (136 * (8 / 3)) /\
  quadrature_gauss 7 (box_of [3; 0] [5; 2]) (1/10) (fun _ => rules) 4 2 = Some res /\ cub (fun p => vget p 0 ^ 3 * vget p 1 ^ 2) res = 136 * (8 / 3).
Proof.
  destruct (eigh_full_solvable 2) as (ew & ev & E). set (rules := [(gauss_x ew 3 5, gauss_w ev 3 5); (gauss_x ew 0 2, gauss_w ev 0 2)]).
  assert (FR : full_rules 2 [3; 0] [5; 2] rules). { constructor; [exists ew, ev; auto|]. constructor; [exists ew, ev; auto|constructor]. }
  assert (O : ordered [3; 0] [5; 2]).
  { split; auto. intros i Hi. destruct i as [|[|i]]; [| |simpl in Hi; lia]; unfold vget; simpl; lra. }
  assert (M : mpoly 4 2 (fun p => vget p 0 ^ 3 * vget p 1 ^ 2)).
  { exists [(fun _ => 0); (fun _ => 0); (fun _ => 0); (fun y => vget y 0 ^ 2)]. split; [simpl; lia|]. split.
    - apply Forall_cons; [apply mpoly_zero|]. apply Forall_cons; [apply mpoly_zero|]. apply Forall_cons; [apply mpoly_zero|]. apply Forall_cons; [|constructor].
      exists [(fun _ => 0); (fun _ => 0); (fun _ => 1)]. split; [simpl; lia|]. split; [repeat constructor|]. intros x y Ly. unfold vget. simpl. ring.
    - intros x y Ly. unfold vget. simpl. ring. }
  assert (B : boxint [3; 0] [5; 2] (fun p => vget p 0 ^ 3 * vget p 1 ^ 2) (136 * (8 / 3))).
  { cbn [boxint]. exists (mult_real_fct (8 / 3) (fun x => x ^ 3)), (mult_real_fct (8 / 3 / 4) (fun x => x ^ 4)). split; [|split].
    - intro x. exists (fun y => x ^ 3 * y ^ 2), (mult_real_fct (x ^ 3 / 3) (fun y => y ^ 3)). split; [intro y; reflexivity|]. split.
      + intro y. replace (x ^ 3 * y ^ 2) with (x ^ 3 / 3 * (INR 3 * y ^ pred 3)) by (simpl; field). apply derivable_pt_lim_scal, derivable_pt_lim_pow.
      + unfold mult_real_fct. field.
    - intro x. replace (mult_real_fct (8 / 3) (fun x => x ^ 3) x) with (8 / 3 / 4 * (INR 4 * x ^ pred 4)) by (unfold mult_real_fct; simpl; field).
      apply derivable_pt_lim_scal, derivable_pt_lim_pow.
    - unfold mult_real_fct. field. }
  destruct (quadrature_box_exact 7 [3; 0] [5; 2] (1/10) (fun _ => rules) 4 2 _ _ O ltac:(lra) ltac:(lia) FR M B) as (res & R1 & R2).
  exists rules, res. auto.
Qed.
